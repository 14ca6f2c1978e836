From Coq Require Import Reals ZArith List Bool Arith Lia Lra.
From Verif Require Import Geo Lie DistModel DistSpec DistProofs FiltModel FiltSpec FiltProofs FiltJac FiltKin UpdProofs OutModel OutSpec.
Import ListNotations.
Local Open Scope R_scope.

(** ** algebra used below, outside any section *)
Lemma cam_pose q r A p W : is_rot A -> mv (mm q (mt A)) (vsub p (vadd W (mv A r))) = in_camera q r p W A.
Proof.
  intros H. unfold in_camera. rewrite mv_mm. f_equal.
  replace (vsub p (vadd W (mv A r))) with (vsub (vsub p W) (mv A r)) by (generalize (mv A r); gv).
  rewrite mv_sub, rot_inv_l by auto. reflexivity.
Qed.
Lemma neg_cross a b : vneg (cross a b) = cross b a. Proof. veq. Qed.
Lemma mt_mzero : mt mzero = mzero. Proof. reflexivity. Qed.
Lemma cross_neg_l a b : cross (vneg a) b = vneg (cross a b). Proof. veq. Qed.
Lemma cross_neg_r a b : cross a (vneg b) = vneg (cross a b). Proof. veq. Qed.
Lemma vneg_vneg a : vneg (vneg a) = a. Proof. veq. Qed.

(** ** camera output: value *)
Lemma camera_motion n c x Wt At : wf n x -> (c < d_cam n)%nat -> imu_motion x Wt At ->
  dV (fun t => vadd (Wt t) (mv (At t) (MrMC x c))) (mv (mt (o_att (camera_out c x))) (o_vel (camera_out c x))) /\
  dM (fun t => mm (qCM x c) (mt (At t))) (mneg (mm (skew (o_ror (camera_out c x))) (o_att (camera_out c x)))).
Proof.
  intros W Hc [P0 A0 V Rr]. pose proof (qCM_rot n x c W Hc) as Rq. split.
  - eapply dV_eq; [apply dV_add; [exact V|apply dV_mv; [exact Rr|apply dV_const]]|]. cbv beta.
    unfold camera_out. cbn [o_att o_vel]. rewrite mt_mm, mt_mt, !mv_mm, rot_inv_l by auto.
    rewrite mv_0, vadd_0_r. unfold world_velocity, rate. rewrite <- (mv_neg (x_att x)), <- mv_add. reflexivity.
  - eapply dM_eq; [apply dM_mm; [apply dM_const0|apply dM_mt; exact Rr]|]. cbv beta.
    unfold camera_out. cbn [o_att o_ror]. fold (rate x). rewrite mm_zero_l, madd_zero_l, mt_mm, mt_skew, skew_vneg, mm_mneg_l, mm_mneg_r.
    f_equal. rewrite !mm_assoc, skew_move by exact Rq. reflexivity.
Qed.
Lemma imu_motion_out x Wt At : is_rot (x_att x) -> imu_motion x Wt At ->
  dV Wt (mv (mt (o_att (imu_out x))) (o_vel (imu_out x))) /\
  dM (fun t => mt (At t)) (mneg (mm (skew (o_ror (imu_out x))) (o_att (imu_out x)))).
Proof.
  intros Ra [P0 A0 V Rr]. split.
  - unfold imu_out. cbn [o_att o_vel]. rewrite mt_mt, mv_neg. exact V.
  - eapply dM_eq; [apply dM_mt; exact Rr|]. unfold imu_out. cbn [o_att o_ror]. fold (rate x). now rewrite mt_mm, mt_skew, skew_vneg, mm_mneg_l.
Qed.

(** ** Jacobians *)
Section CAM.
Variables (n : dims) (x : state) (c : nat) (tv : tangent).
Hypothesis W : wf n x.
Hypothesis Hc : (c < d_cam n)%nat.
Let X t := boxplus x (along tv t).

Lemma x_pos0 : x_pos (X 0) = x_pos x. Proof. unfold X, boxplus, along. cbn [x_pos]. now rewrite vscale_0, vadd_0_r. Qed.
Lemma x_vel0 : x_vel (X 0) = x_vel x. Proof. unfold X, boxplus, along. cbn [x_vel]. now rewrite vscale_0, vadd_0_r. Qed.
Lemma x_att0 : x_att (X 0) = x_att x. Proof. unfold X, boxplus, along. cbn [x_att]. now rewrite vscale_0, expm_0, mm_1_l. Qed.
Lemma rate0 : rate (X 0) = rate x. Proof. unfold rate, X, boxplus, along. cbn [x_aux x_gyb]. now rewrite vscale_0, vadd_0_r. Qed.
Lemma d_pos : dV (fun t => x_pos (X t)) (tv Pos). Proof. apply dV_line. Qed.
Lemma d_vel : dV (fun t => x_vel (X t)) (tv Vel). Proof. apply dV_line. Qed.
Lemma d_attX : dM (fun t => x_att (X t)) (mm (skew (tv Att)) (x_att x)). Proof. apply dM_exp_line. Qed.
Lemma d_rate : dV (fun t => rate (X t)) (vneg (tv Gyb)).
Proof. unfold rate. eapply dV_eq; [apply (dV_sub (fun _ => a_wmeas (x_aux x))); [apply dV_const|apply dV_line]|]. generalize (tv Gyb). unfold v0. gv. Qed.
Lemma rotC : is_rot (qCM x c). Proof. now apply (qCM_rot n). Qed.

Lemma calib_vep M : mv (if a_calib (x_aux x) && (c =? c)%nat then M else mzero) (tv (Vep c)) = mv M (vr x tv c).
Proof. rewrite Nat.eqb_refl, andb_true_r. unfold vr. destruct (a_calib (x_aux x)); [reflexivity|]. now rewrite mzero_mv, mv_0. Qed.
Lemma calib_vea M : mv (if a_calib (x_aux x) && (c =? c)%nat then M else mzero) (tv (Vea c)) = mv M (vq x tv c).
Proof. rewrite Nat.eqb_refl, andb_true_r. unfold vq. destruct (a_calib (x_aux x)); [reflexivity|]. now rewrite mzero_mv, mv_0. Qed.

Ltac support L := match goal with |- row_mul ?n ?J ?v = _ => rewrite (row_support n J v L);
  [unfold fsum; cbn [fold_right]
  |repeat (apply NoDup_cons; [cbn; intuition congruence|]); apply NoDup_nil
  |intros s Hs; cbn in Hs; decompose [or] Hs; subst; cbn; auto; contradiction
  |intros s Hs Hn; destruct s; try reflexivity; try (exfalso; apply Hn; cbn; tauto);
   cbn; repeat match goal with |- context [(?p =? ?q)%nat] => destruct (Nat.eqb_spec p q) as [Ee|Ne]; [exfalso; apply Hn; cbn; rewrite Ee; tauto|] end;
   rewrite ?andb_false_r; reflexivity] end.

Lemma cj_pos : row_mul n (camera_jac c x OPos) tv =
  vadd (tv Pos) (vadd (vneg (cross (mv (x_att x) (MrMC x c)) (tv Att))) (mv (x_att x) (vr x tv c))).
Proof.
  support [Pos; Att; Vep c]. unfold camera_jac. rewrite calib_vep, mv_m1, mv_mneg, skew_cross, vadd_0_r. reflexivity.
Qed.
Lemma cj_ror : row_mul n (camera_jac c x ORor) tv =
  vadd (vneg (mv (qCM x c) (tv Gyb))) (vneg (cross (mv (qCM x c) (rate x)) (vq x tv c))).
Proof. support [Gyb; Vea c]. unfold camera_jac. rewrite calib_vea, !mv_mneg, skew_cross, vadd_0_r. reflexivity. Qed.
Lemma cj_att : row_mul n (camera_jac c x OAtt) tv = vadd (vneg (mv (mm (qCM x c) (mt (x_att x))) (tv Att))) (vq x tv c).
Proof. support [Att; Vea c]. unfold camera_jac. rewrite calib_vea, !mv_mneg, mv_m1, vadd_0_r. reflexivity. Qed.
Lemma cj_vel : row_mul n (camera_jac c x OVel) tv =
  vadd (vneg (mv (qCM x c) (tv Vel))) (vadd (mv (qCM x c) (cross (MrMC x c) (tv Gyb)))
   (vadd (mv (qCM x c) (cross (rate x) (vr x tv c)))
         (vneg (cross (mv (qCM x c) (vadd (vneg (x_vel x)) (cross (rate x) (MrMC x 0)))) (vq x tv c))))).
Proof.
  support [Vel; Gyb; Vep c; Vea c]. unfold camera_jac. rewrite calib_vea, calib_vep, !mv_mneg, !mv_mm, !skew_cross, vadd_0_r. reflexivity.
Qed.

Lemma cam_jac_pos : dV (fun t => o_pos (camera_out c (X t))) (row_mul n (camera_jac c x OPos) tv).
Proof.
  rewrite cj_pos. unfold camera_out. cbn [o_pos]. eapply dV_eq.
  - apply dV_add; [apply d_pos|apply dV_mv; [apply d_attX|apply MrMC_box]].
  - cbv beta. rewrite x_att0. unfold X at 1. rewrite MrMC_box0, mv_mm, skew_cross. do 2 f_equal. symmetry. apply neg_cross.
Qed.
Lemma cam_jac_ror : dV (fun t => o_ror (camera_out c (X t))) (row_mul n (camera_jac c x ORor) tv).
Proof.
  rewrite cj_ror. unfold camera_out. cbn [o_ror]. eapply dV_eq.
  - apply dV_mv; [apply qCM_box|apply d_rate].
  - cbv beta. rewrite rate0. unfold X. rewrite qCM_box0, mv_mm, skew_cross, mv_neg, neg_cross. apply vadd_comm.
Qed.
Lemma cam_jac_att : dM (fun t => o_att (camera_out c (X t))) (mm (skew (row_mul n (camera_jac c x OAtt) tv)) (o_att (camera_out c x))).
Proof.
  rewrite cj_att. unfold camera_out. cbn [o_att]. eapply dM_eq.
  - apply dM_mm; [apply qCM_box|apply dM_mt, d_attX].
  - cbv beta. rewrite x_att0. unfold X. rewrite qCM_box0. rewrite mt_mm, mt_skew, skew_madd, !skew_vneg, mm_madd_l, mm_mneg_l, mm_mneg_r, mm_mneg_r.
    rewrite <- skew_move by (apply rot_mm; [apply rotC|apply rot_tr, (wf_att n x W)]). rewrite !mm_assoc.
    generalize (mm (mm (skew (vq x tv c)) (qCM x c)) (mt (x_att x))) (mm (mm (qCM x c) (mt (x_att x))) (skew (tv Att))). gv.
Qed.
(** the velocity row is off by the lever-arm difference between this camera and camera 0 *)
Lemma cam_jac_vel : dV (fun t => o_vel (camera_out c (X t)))
  (vadd (row_mul n (camera_jac c x OVel) tv) (cross (vq x tv c) (mv (qCM x c) (cross (rate x) (vsub (MrMC x c) (MrMC x 0)))))).
Proof.
  rewrite cj_vel. unfold camera_out. cbn [o_vel].
  eapply dV_ext with (f := fun t => mv (qCM (X t) c) (vadd (vneg (x_vel (X t))) (cross (rate (X t)) (MrMC (X t) c)))).
  { intros t. now rewrite skew_cross. }
  eapply dV_eq.
  - apply dV_mv; [apply qCM_box|apply dV_add; [apply dV_neg, d_vel|apply dV_cross; [apply d_rate|apply MrMC_box]]].
  - cbv beta. rewrite rate0, x_vel0. unfold X. rewrite qCM_box0, MrMC_box0, mv_mm, skew_cross.
    rewrite !mv_add, !mv_neg. 
    replace (cross (vneg (tv Gyb)) (MrMC x c)) with (cross (MrMC x c) (tv Gyb)) by (generalize (tv Gyb) (MrMC x c); gv).
    replace (cross (rate x) (vsub (MrMC x c) (MrMC x 0))) with (vsub (cross (rate x) (MrMC x c)) (cross (rate x) (MrMC x 0))) by (generalize (rate x) (MrMC x c) (MrMC x 0); gv).
    rewrite mv_sub.
    generalize (mv (qCM x c) (x_vel x)) (mv (qCM x c) (tv Vel)) (mv (qCM x c) (cross (MrMC x c) (tv Gyb))) (mv (qCM x c) (cross (rate x) (MrMC x c)))
      (mv (qCM x c) (cross (rate x) (MrMC x 0))) (mv (qCM x c) (cross (rate x) (vr x tv c))) (vq x tv c). gv.
Qed.
Lemma cam_jac_vel_ok : (c = 0%nat \/ a_calib (x_aux x) = false \/ MrMC x c = MrMC x 0 \/ tv (Vea c) = v0) ->
  dV (fun t => o_vel (camera_out c (X t))) (row_mul n (camera_jac c x OVel) tv).
Proof.
  intros H. eapply dV_eq; [apply cam_jac_vel|].
  assert (E : cross (vq x tv c) (mv (qCM x c) (cross (rate x) (vsub (MrMC x c) (MrMC x 0)))) = v0).
  { decompose [or] H.
    - subst. replace (vsub (MrMC x 0) (MrMC x 0)) with v0 by (generalize (MrMC x 0); unfold v0; gv).
      replace (cross (rate x) v0) with v0 by (generalize (rate x); unfold v0; gv). rewrite mv_0. generalize (vq x tv 0). unfold v0. gv.
    - unfold vq. rewrite H1. generalize (mv (qCM x c) (cross (rate x) (vsub (MrMC x c) (MrMC x 0)))). unfold v0. gv.
    - rewrite H0. replace (vsub (MrMC x 0) (MrMC x 0)) with v0 by (generalize (MrMC x 0); unfold v0; gv).
      replace (cross (rate x) v0) with v0 by (generalize (rate x); unfold v0; gv). rewrite mv_0. generalize (vq x tv c). unfold v0. gv.
    - unfold vq. rewrite H0. destruct (a_calib (x_aux x)); generalize (mv (qCM x c) (cross (rate x) (vsub (MrMC x c) (MrMC x 0)))); unfold v0; gv. }
  rewrite E. apply vadd_0_r.
Qed.

(** IMU output *)
Lemma imu_jac_ok :
  dV (fun t => o_pos (imu_out (X t))) (row_mul n (imu_jac x OPos) tv) /\
  dV (fun t => o_vel (imu_out (X t))) (row_mul n (imu_jac x OVel) tv) /\
  dV (fun t => o_ror (imu_out (X t))) (row_mul n (imu_jac x ORor) tv) /\
  dM (fun t => o_att (imu_out (X t))) (mm (skew (row_mul n (imu_jac x OAtt) tv)) (o_att (imu_out x))).
Proof.
  assert (EP : row_mul n (imu_jac x OPos) tv = tv Pos) by (support [Pos]; unfold imu_jac; now rewrite mv_m1, vadd_0_r).
  assert (EV : row_mul n (imu_jac x OVel) tv = vneg (tv Vel)) by (support [Vel]; unfold imu_jac; now rewrite mv_mneg, mv_m1, vadd_0_r).
  assert (ER : row_mul n (imu_jac x ORor) tv = vneg (tv Gyb)) by (support [Gyb]; unfold imu_jac; now rewrite mv_mneg, mv_m1, vadd_0_r).
  assert (EA : row_mul n (imu_jac x OAtt) tv = vneg (mv (mt (x_att x)) (tv Att))) by (support [Att]; unfold imu_jac; now rewrite mv_mneg, vadd_0_r).
  rewrite EP, EV, ER, EA. unfold imu_out. cbn [o_pos o_vel o_ror o_att]. split; [apply d_pos|split; [apply dV_neg, d_vel|split; [apply d_rate|]]].
  eapply dM_eq; [apply dM_mt, d_attX|]. rewrite mt_mm, mt_skew, !skew_vneg, mm_mneg_r, mm_mneg_l. f_equal. apply skew_move, rot_tr, (wf_att n x W).
Qed.
End CAM.

(** the gyroscope noise in the camera frame *)
Lemma rate_cov_iso q s : is_rot q -> rotate_cov q (mscale s m1) = mscale s m1.
Proof.
  intros H. unfold rotate_cov. replace (mm q (mscale s m1)) with (mscale s q) by (generalize q s; gv).
  replace (mm (mscale s q) (mt q)) with (mscale s (mm q (mt q))) by (generalize q (mt q) s; gv). now rewrite (proj1 H).
Qed.

(** ** features *)
Lemma cols_mul a b d v : mv (cols a b d) v = vadd (vscale (vx v) a) (vadd (vscale (vy v) b) (vscale (vz v) d)).
Proof. unfold cols. veq. Qed.
Lemma usable_fcam n x i : usable n x i -> (fcam x i < d_cam n)%nat /\ cam_of n (x_fea x i) = Some (fcam x i).
Proof. intros [[H1 H2] _]. unfold fcam, cam_of. split; [lia|]. rewrite (proj2 (Z.leb_le _ _) H1), (proj2 (Z.ltb_lt _ _) H2). reflexivity. Qed.

Section FEAT.
Variables (n : dims) (x : state) (i : nat) (tv : tangent).
Hypothesis W : wf n x.
Hypothesis Hi : (i < d_max n)%nat.
Hypothesis U : usable n x i.
Let X t := boxplus x (along tv t).
Let ff := x_fea x i.
Let dd := get_distance (ft_d ff).
Let Q := ft_Q ff.
Let a' := Mmul Q (vx (tv (Fea i))) (vy (tv (Fea i))).
Let d' := distance_derivative (ft_d ff) * vz (tv (Fea i)).

Lemma f_nor : dV (fun t => nor (ft_Q (x_fea (X t) i))) a'.
Proof. exact (s_a n x i W Hi tv). Qed.
Lemma f_dist : dR (fun t => get_distance (ft_d (x_fea (X t) i))) d'.
Proof. exact (s_d x i (proj2 U) tv). Qed.
Lemma f_Q0 : ft_Q (x_fea (X 0) i) = Q. Proof. exact (s_Q0 x i tv). Qed.
Lemma f_d0 : ft_d (x_fea (X 0) i) = ft_d ff. Proof. exact (s_d0 x i tv). Qed.
Lemma f_ray0 : ray (x_fea (X 0) i) = ray ff. Proof. unfold ray. now rewrite f_Q0, f_d0. Qed.
Let ray' := vadd (vscale d' (nor Q)) (vscale dd a').
Lemma f_ray : dV (fun t => ray (x_fea (X t) i)) ray'.
Proof. unfold ray. eapply dV_eq; [apply dV_scale; [apply f_dist|apply f_nor]|]. cbv beta. rewrite f_Q0, f_d0. reflexivity. Qed.
Lemma fcamX t : fcam (X t) i = fcam x i. Proof. reflexivity. Qed.
Let c := fcam x i.
Lemma c_lt : (c < d_cam n)%nat. Proof. exact (proj1 (usable_fcam n x i U)). Qed.
Lemma qc_rot : is_rot (qCM x c). Proof. apply (qCM_rot n); [exact W|exact c_lt]. Qed.

Lemma lmk_deriv : dV (fun t => landmark_out (X t) i) (vadd (vr x tv c) (mv (mt (qCM x c)) (vadd ray' (cross (ray ff) (vq x tv c))))).
Proof.
  unfold landmark_out. eapply dV_eq.
  - apply (dV_add (fun t => MrMC (X t) c) (fun t => mv (mt (qCM (X t) c)) (ray (x_fea (X t) i)))); [apply MrMC_box|apply dV_mv; [apply dM_mt, qCM_box|apply f_ray]].
  - cbv beta. rewrite f_ray0. unfold X. rewrite qCM_box0. f_equal. rewrite mt_mm, mt_skew, mv_mm, skew_cross, <- mv_add. f_equal.
    generalize (vq x tv c) (ray ff) ray'. gv.
Qed.
(** the row of the code, applied to a direction, reads camera 0's extrinsics *)
Lemma lmk_row : (0 < d_cam n)%nat -> row_mul n (landmark_jac x i) tv = vadd (vr x tv 0) (mv (mt (qCM x c)) (vadd ray' (cross (ray ff) (vq x tv 0)))).
Proof.
  intros H0. rewrite (row_support n _ tv [Fea i; Vep 0; Vea 0]).
  - unfold fsum. cbn [fold_right]. unfold landmark_jac. rewrite !Nat.eqb_refl, andb_true_r. fold c ff Q dd.
    assert (EP : mv (if a_calib (x_aux x) then m1 else mzero) (tv (Vep 0)) = vr x tv 0).
    { unfold vr. destruct (a_calib (x_aux x)); [apply mv_m1|apply mzero_mv]. }
    assert (EA : mv (if a_calib (x_aux x) then mm (mt (qCM x c)) (skew (ray ff)) else mzero) (tv (Vea 0)) = mv (mt (qCM x c)) (cross (ray ff) (vq x tv 0))).
    { unfold vq. destruct (a_calib (x_aux x)); [now rewrite mv_mm, skew_cross|]. rewrite mzero_mv. replace (cross (ray ff) v0) with v0 by (generalize (ray ff); unfold v0; gv). now rewrite mv_0. }
    rewrite EP, EA, cols_mul, vadd_0_r, mv_add. rewrite <- !mv_scale, <- !mv_add.
    replace (vadd (vscale (vx (tv (Fea i))) (vscale dd (M1 Q))) (vadd (vscale (vy (tv (Fea i))) (vscale dd (M2c Q))) (vscale (vz (tv (Fea i))) (vscale (distance_derivative (ft_d ff)) (nor Q))))) with ray'.
    2: { unfold ray', a', d', Mmul. fold (M1 Q). unfold M2c. generalize (M1 Q) (perp1 Q) (nor Q) dd (tv (Fea i)) (distance_derivative (ft_d ff)). gv. }
    rewrite mv_add. generalize (mv (mt (qCM x c)) ray') (mv (mt (qCM x c)) (cross (ray ff) (vq x tv 0))) (vr x tv 0). gv.
  - repeat (apply NoDup_cons; [cbn; intuition congruence|]); apply NoDup_nil.
  - intros s Hs. cbn in Hs. decompose [or] Hs; subst; cbn; auto; contradiction.
  - intros s Hs Hn. destruct s as [| | | | |k|k|k|k|k]; try reflexivity; unfold landmark_jac.
    + destruct (Nat.eqb_spec k 0) as [->|_]; [exfalso; apply Hn; cbn; tauto|now rewrite andb_false_r].
    + destruct (Nat.eqb_spec k 0) as [->|_]; [exfalso; apply Hn; cbn; tauto|now rewrite andb_false_r].
    + destruct (Nat.eqb_spec k i) as [->|_]; [exfalso; apply Hn; cbn; tauto|reflexivity].
Qed.
Lemma lmk_ok : c = 0%nat \/ a_calib (x_aux x) = false -> dV (fun t => landmark_out (X t) i) (row_mul n (landmark_jac x i) tv).
Proof.
  intros H. pose proof c_lt. rewrite lmk_row by lia. eapply dV_eq; [apply lmk_deriv|]. destruct H as [-> | H]; [reflexivity|].
  unfold vr, vq. rewrite H. reflexivity.
Qed.

Lemma readable_ok : dV (fun t => readable_bea (x_fea (X t) i)) (mv (readable_jac_bea ff) (tv (Fea i))) /\
  dR (fun t => readable_dis (x_fea (X t) i)) (dot (readable_jac_dis ff) (tv (Fea i))).
Proof.
  split.
  - eapply dV_eq; [apply f_nor|]. unfold readable_jac_bea. rewrite cols_mul. unfold a', Mmul. fold Q. fold (M1 Q). unfold M2c.
    generalize (M1 Q) (perp1 Q) (tv (Fea i)). unfold v0. gv.
  - eapply dR_eq; [apply f_dist|]. unfold d', readable_jac_dis. generalize (distance_derivative (ft_d ff)) (tv (Fea i)). clear. intros k [[a b] e]. cbn. unfold dot. cbn. ring.
Qed.
End FEAT.

Lemma lmk_row_any n x i tv : wf n x -> (i < d_max n)%nat -> usable n x i ->
  dV (fun t => landmark_out (boxplus x (along tv t)) i) (row_mul n (landmark_jac x i) (as_cam0 (fcam x i) tv)).
Proof.
  intros W Hi U. pose proof (usable_fcam n x i U) as [L _]. rewrite lmk_row by (auto; lia). eapply dV_eq; [apply (lmk_deriv n); auto|]. reflexivity.
Qed.
Lemma lmk_value n x i : wf n x -> usable n x i -> 
  mv (qCM x (fcam x i)) (vsub (landmark_out x i) (MrMC x (fcam x i))) = ray (x_fea x i).
Proof.
  intros W U. pose proof (usable_fcam n x i U) as [L _]. unfold landmark_out.
  replace (vsub (vadd (MrMC x (fcam x i)) (mv (mt (qCM x (fcam x i))) (ray (x_fea x i)))) (MrMC x (fcam x i))) with (mv (mt (qCM x (fcam x i))) (ray (x_fea x i)))
    by (generalize (mv (mt (qCM x (fcam x i))) (ray (x_fea x i))) (MrMC x (fcam x i)); gv).
  apply rot_inv_r, (qCM_rot n); auto.
Qed.

(** ** transfer to another camera *)
Lemma dR_loc f g d : (exists e, 0 < e /\ forall t, Rabs t < e -> f t = g t) -> dR f d -> dR g d.
Proof.
  intros (e & He & E) D. unfold dR in *. apply (dpl_local g f). 2: exact D.
  exists (mkposreal e He). intros h Hh. rewrite !Rplus_0_l. symmetry. apply E, Hh.
Qed.
Lemma dV_loc f g d : (exists e, 0 < e /\ forall t, Rabs t < e -> f t = g t) -> dV f d -> dV g d.
Proof.
  intros (e & He & E) (D1 & D2 & D3). split; [|split]; eapply dR_loc; eauto; exists e; split; auto; intros t Ht; now rewrite E.
Qed.
Lemma nonzero_near (f : R -> V3) d : dV f d -> f 0 <> v0 -> exists e, 0 < e /\ forall t, Rabs t < e -> f t <> v0.
Proof.
  intros D N. pose proof (norm_cont f d D) as C. assert (P : 0 < norm (f 0)).
  { destruct (Rle_lt_or_eq_dec _ _ (norm_nonneg (f 0))) as [H|H]; auto. exfalso. apply N, norm_zero. auto. }
  destruct (C (norm (f 0)) P) as (e & He & H). exists e. split; [exact He|]. intros t Ht E.
  destruct (Req_dec t 0) as [-> | T]; [contradiction|].
  specialize (H t). cbn in H. unfold D_x, no_cond in H. rewrite E in H. unfold R_dist in H.
  assert (K : Rabs (norm v0 - norm (f 0)) < norm (f 0)) by (apply H; split; [split; [exact I|auto]|now rewrite Rminus_0_r]).
  replace (norm v0) with 0 in K by (unfold norm, v0, dot; cbn; rewrite !Rmult_0_l, !Rplus_0_l; symmetry; apply sqrt_0).
  rewrite Rminus_0_l, Rabs_Ropp, Rabs_pos_eq in K; lra.
Qed.

Section TRF.
Variables (frame : V3 -> M3) (n : dims) (x : state) (i k : nat) (tv : tangent).
Hypothesis GF : good_frame frame.
Hypothesis W : wf n x.
Hypothesis Hi : (i < d_max n)%nat.
Hypothesis Hk : (k < d_cam n)%nat.
Hypothesis U : usable n x i.
Let X t := boxplus x (along tv t).
Let ff := x_fea x i.
Let c := fcam x i.
Hypothesis NE : k <> c.
Let dd := get_distance (ft_d ff).
Let Q := ft_Q ff.
Let a' := Mmul Q (vx (tv (Fea i))) (vy (tv (Fea i))).
Let d' := distance_derivative (ft_d ff) * vz (tv (Fea i)).
Let ray' := vadd (vscale d' (nor Q)) (vscale dd a').
Let q := qDC x k c.
Let DD := DrDP x k i.

Lemma qk_rot : is_rot (qCM x k). Proof. now apply (qCM_rot n). Qed.
Lemma qcc_rot : is_rot (qCM x c). Proof. apply (qCM_rot n); [exact W|]. exact (proj1 (usable_fcam n x i U)). Qed.
Lemma q_rotD : is_rot q. Proof. apply rot_mm; [exact qk_rot|apply rot_tr, qcc_rot]. Qed.
Lemma cam_ne : (ft_cam ff =? Z.of_nat k)%Z = false.
Proof. apply Z.eqb_neq. intros E. apply NE. unfold c, fcam. fold ff. rewrite E. symmetry. apply Nat2Z.id. Qed.

(** true derivative of the transferred point *)
Let D' := vadd (cross (vq x tv k) DD) (vadd (mv q (vadd ray' (cross (ray ff) (vq x tv c)))) (mv (qCM x k) (vsub (vr x tv c) (vr x tv k)))).
Lemma D_split y : is_rot (qCM y c) -> DrDP y k i = mv (qDC y k (fcam y i)) (vsub (ray (x_fea y i)) (CrCD y k (fcam y i))).
Proof. reflexivity. Qed.
Lemma D0 : DrDP (X 0) k i = DD.
Proof.
  unfold DrDP, qDC, CrCD. change (fcam (X 0) i) with c. unfold X. rewrite (f_ray0 x i tv), !qCM_box0, !MrMC_box0. reflexivity.
Qed.
Lemma D_deriv : dV (fun t => DrDP (X t) k i) D'.
Proof.
  unfold DrDP, qDC, CrCD. eapply dV_eq.
  - apply (dV_mv (fun t => mm (qCM (X t) k) (mt (qCM (X t) c))) (fun t => vsub (ray (x_fea (X t) i)) (mv (qCM (X t) c) (vsub (MrMC (X t) k) (MrMC (X t) c))))).
    + apply dM_mm; [apply qCM_box|apply dM_mt, qCM_box].
    + apply dV_sub; [apply (f_ray n); auto|apply dV_mv; [apply qCM_box|apply dV_sub; apply MrMC_box]].
  - cbv beta. unfold X. rewrite (f_ray0 x i tv). rewrite !qCM_box0, !MrMC_box0.
    fold ff. change (vadd (vscale (distance_derivative (ft_d ff) * vz (tv (Fea i))) (nor (ft_Q ff)))
      (vscale (get_distance (ft_d ff)) (Mmul (ft_Q ff) (vx (tv (Fea i))) (vy (tv (Fea i)))))) with ray'.
    unfold D'. assert (ED : DD = mv (qCM x k) (mv (mt (qCM x c)) (vsub (ray ff) (mv (qCM x c) (vsub (MrMC x k) (MrMC x c)))))) by (unfold DD, DrDP, qDC, CrCD; fold c ff; apply mv_mm).
    unfold q, qDC. rewrite mv_madd, !mv_mm, !skew_cross, <- ED. rewrite mt_mm, mt_skew, !mv_mm, skew_cross.
    rewrite !mv_sub, !mv_add, !mv_sub, !rot_inv_l by apply qcc_rot.
    set (A := ray ff). set (B := mv (qCM x c) (MrMC x k)). set (C := mv (qCM x c) (MrMC x c)).
    replace (cross (vneg (vq x tv c)) (vsub A (vsub B C))) with (vsub (cross A (vq x tv c)) (cross (vsub B C) (vq x tv c))) by (generalize A B C (vq x tv c); gv).
    replace (cross (vq x tv c) (vsub B C)) with (vneg (cross (vsub B C) (vq x tv c))) by (generalize A B C (vq x tv c); gv).
    rewrite !mv_sub, !mv_neg. generalize (mv (qCM x k) (mv (mt (qCM x c)) (cross A (vq x tv c)))) (mv (qCM x k) (mv (mt (qCM x c)) (cross (vsub B C) (vq x tv c))))
      (cross (vq x tv k) DD) (mv (qCM x k) (mv (mt (qCM x c)) ray')) (mv (qCM x k) (vr x tv c)) (mv (qCM x k) (vr x tv k)). gv.
Qed.

(** the code's row *)
Let Qo := frame DD.
Let row ign := row_mul n (transfer_jac frame ign k x i) (flip_vea tv).
Lemma row_trf ign : vx (row ign) = dot (M1 Qo) (vscale (/ norm DD) D') /\ vy (row ign) = dot (M2c Qo) (vscale (/ norm DD) D') /\
  vz (row ign) = if ign then 0 else dot (nor Qo) D'.
Proof.
  pose proof (proj1 (usable_fcam n x i U)) as Lc. fold c in Lc.
  assert (RS : row ign = fsum (transfer_jac frame ign k x i) (flip_vea tv) [Fea i; Vea k; Vea c; Vep k; Vep c]).
  { unfold row. apply row_support.
    - repeat (apply NoDup_cons; [cbn; intuition congruence|]); apply NoDup_nil.
    - intros s Hs. cbn in Hs. decompose [or] Hs; subst; cbn; auto; contradiction.
    - intros s Hs Hn. unfold transfer_jac. fold ff. rewrite cam_ne. destruct s as [| | | | |j|j|j|j|j]; try reflexivity; fold c.
      + destruct (a_calib (x_aux x)); [|reflexivity]. destruct (Nat.eqb_spec j k) as [->|_]; [exfalso; apply Hn; cbn; tauto|]. destruct (Nat.eqb_spec j c) as [->|_]; [exfalso; apply Hn; cbn; tauto|reflexivity].
      + destruct (a_calib (x_aux x)); [|reflexivity]. destruct (Nat.eqb_spec j k) as [->|_]; [exfalso; apply Hn; cbn; tauto|]. destruct (Nat.eqb_spec j c) as [->|_]; [exfalso; apply Hn; cbn; tauto|reflexivity].
      + destruct (Nat.eqb_spec j i) as [->|_]; [exfalso; apply Hn; cbn; tauto|reflexivity]. }
  rewrite RS. unfold fsum. cbn [fold_right]. unfold transfer_jac. fold ff. rewrite cam_ne. fold c. fold q DD Qo Q dd.
  rewrite !Nat.eqb_refl. destruct (Nat.eqb_spec c k) as [E|_]; [congruence|]. cbv zeta. cbn [flip_vea].
  set (blk := fun X0 => rows Qo (mscale (/ norm DD) X0) (if ign then v0 else mv (mt X0) (nor Qo))).
  assert (EP : forall X0 j, mv (if a_calib (x_aux x) then blk X0 else mzero) (tv (Vep j)) = mv (blk X0) (vr x tv j)).
  { intros X0 j. unfold vr. destruct (a_calib (x_aux x)); [reflexivity|]. now rewrite mzero_mv, mv_0. }
  assert (EA : forall X0 j, mv (if a_calib (x_aux x) then blk X0 else mzero) (vneg (tv (Vea j))) = mv (blk X0) (vneg (vq x tv j))).
  { intros X0 j. unfold vq. destruct (a_calib (x_aux x)); [reflexivity|]. now rewrite mzero_mv, vneg_0, mv_0. }
  change (rows Qo (mscale (/ norm DD) (skew DD)) (if ign then v0 else mv (mt (skew DD)) (nor Qo))) with (blk (skew DD)).
  match goal with |- context [rows Qo (mscale (/ norm DD) (madd ?a ?b)) ?r] => change (rows Qo (mscale (/ norm DD) (madd a b)) r) with (blk (madd a b)) end.
  match goal with |- context [rows Qo (mscale (/ norm DD) (mm (mneg q) (qCM x c))) ?r] => change (rows Qo (mscale (/ norm DD) (mm (mneg q) (qCM x c))) r) with (blk (mm (mneg q) (qCM x c))) end.
  match goal with |- context [rows Qo (mscale (/ norm DD) (mm (mneg q) (mneg (qCM x c)))) ?r] => change (rows Qo (mscale (/ norm DD) (mm (mneg q) (mneg (qCM x c)))) r) with (blk (mm (mneg q) (mneg (qCM x c)))) end.
  rewrite !EP, !EA.
  assert (AX : forall p q, vx (vadd p q) = vx p + vx q) by reflexivity.
  assert (AY : forall p q, vy (vadd p q) = vy p + vy q) by reflexivity.
  assert (AZ : forall p q, vz (vadd p q) = vz p + vz q) by reflexivity.
  assert (DE : D' = vadd (vadd (mv (mscale dd q) a') (vscale (vz (tv (Fea i))) (vscale (distance_derivative (ft_d ff)) (mv q (nor Q)))))
     (vadd (mv (skew DD) (vneg (vq x tv k))) (vadd (mv (madd (mm (skew DD) (mneg q)) (mm (mneg q) (skew (CrCD x k c)))) (vneg (vq x tv c)))
       (vadd (mv (mm (mneg q) (qCM x c)) (vr x tv k)) (mv (mm (mneg q) (mneg (qCM x c))) (vr x tv c)))))).
  { unfold D'. rewrite mv_madd, !mv_mm, !skew_cross, ?mv_mscale, !mv_mneg, !mv_neg, !vneg_vneg.
    assert (EK : forall z, mv q (mv (qCM x c) z) = mv (qCM x k) z) by (intros z; unfold q, qDC; rewrite mv_mm, rot_inv_l by apply qcc_rot; reflexivity).
    rewrite !EK. 
    assert (ED : DD = mv q (vsub (ray ff) (CrCD x k c))) by reflexivity.
    replace (cross DD (mv q (vq x tv c))) with (mv q (cross (vsub (ray ff) (CrCD x k c)) (vq x tv c))) by (rewrite ED; symmetry; apply rot_cross, q_rotD).
    replace (cross (vsub (ray ff) (CrCD x k c)) (vq x tv c)) with (vsub (cross (ray ff) (vq x tv c)) (cross (CrCD x k c) (vq x tv c))) by (generalize (ray ff) (CrCD x k c) (vq x tv c); gv).
    rewrite !cross_neg_r, !mv_sub, !mv_add, !mv_neg. unfold ray', d'. rewrite !mv_add, !mv_scale.
    replace (vneg (cross DD (vq x tv k))) with (cross (vq x tv k) DD) by (symmetry; apply neg_cross).
    generalize (cross (vq x tv k) DD) (mv q (nor Q)) (mv q a') (mv q (cross (ray ff) (vq x tv c))) (mv q (cross (CrCD x k c) (vq x tv c))) (mv (qCM x k) (vr x tv c)) (mv (qCM x k) (vr x tv k)) dd (distance_derivative (ft_d ff)) (tv (Fea i)). gv. }
  split; [|split].
  - rewrite !AX. unfold blk. rewrite !rows_vx, fea_vx. fold a'. rewrite DE, !mv_mscale, !dot_scale_r, !dot_add_r, !dot_scale_r. cbn [vx v0 fst]. ring.
  - rewrite !AY. unfold blk. rewrite !rows_vy, fea_vy. fold a'. rewrite DE, !mv_mscale, !dot_scale_r, !dot_add_r, !dot_scale_r. cbn [vy v0 fst snd]. ring.
  - rewrite !AZ. unfold blk. rewrite !rows_vz, fea_vz. fold a'. destruct ign.
    + assert (Z : forall z, dot v0 z = 0) by (clear; intros [[? ?] ?]; unfold dot, v0; cbn; ring). rewrite !Z. cbn [vz v0 snd]. ring.
    + rewrite DE, !mv_dot, !mt_mt, !dot_add_r, !dot_scale_r. cbn [vz v0 snd]. ring.
Qed.

Hypothesis ND : DD <> v0.
Lemma trf_unit ign : dV (fun t => unit (DrDP (X t) k i)) (Mmul Qo (vx (row ign)) (vy (row ign))).
Proof.
  destruct (row_trf ign) as (-> & -> & _). destruct (GF DD ND) as [RQ NQ]. fold Qo in RQ, NQ.
  destruct (dV_norm_unit (fun t => DrDP (X t) k i) D' ltac:(cbv beta; rewrite D0; exact ND) D_deriv) as (dn & H & En). cbv beta in En. rewrite D0 in En.
  assert (O1 : dot (M1 Qo) (nor Qo) = 0).
  { pose proof (Mmul_nor Qo 1 0 RQ) as H1. rewrite dot_comm. rewrite <- H1. f_equal. unfold Mmul. fold (M1 Qo). generalize (M1 Qo) (perp1 Qo). gv. }
  assert (O2 : dot (M2c Qo) (nor Qo) = 0).
  { pose proof (Mmul_nor Qo 0 1 RQ) as H1. rewrite dot_comm. rewrite <- H1. f_equal. unfold Mmul, M2c. generalize (vneg (perp2 Qo)) (perp1 Qo). gv. }
  assert (E1 : dot (M1 Qo) (vscale (/ norm DD) D') = dot (M1 Qo) dn) by (rewrite En, <- NQ, !dot_scale_r, dot_sub_r, dot_scale_r, O1; ring).
  assert (E2 : dot (M2c Qo) (vscale (/ norm DD) D') = dot (M2c Qo) dn) by (rewrite En, <- NQ, !dot_scale_r, dot_sub_r, dot_scale_r, O2; ring).
  rewrite E1, E2, Mmul_MT; [exact H|exact RQ|]. rewrite En, <- NQ, dot_scale_r, dot_sub_r, dot_scale_r, (nor_unit Qo RQ). ring.
Qed.
Lemma trf_norm : dR (fun t => norm (DrDP (X t) k i)) (vz (row false)).
Proof.
  destruct (row_trf false) as (_ & _ & ->). destruct (GF DD ND) as [RQ NQ]. fold Qo in RQ, NQ.
  eapply dR_eq; [apply dR_norm; [cbv beta; rewrite D0; exact ND|apply D_deriv]|]. cbv beta. rewrite D0, NQ. unfold unit. rewrite dot_scale_l. unfold Rdiv. ring.
Qed.
(** near the state the transferred bearing is the direction of the point *)
Lemma near : exists e, 0 < e /\ forall t, Rabs t < e -> DrDP (X t) k i <> v0.
Proof. apply (nonzero_near _ D'); [apply D_deriv|cbv beta; rewrite D0; exact ND]. Qed.
Lemma norm_pos v : v <> v0 -> 0 < norm v.
Proof. intros N. destruct (Rle_lt_or_eq_dec _ _ (norm_nonneg v)) as [H|H]; auto. exfalso. apply N, norm_zero. auto. Qed.
Lemma transfer_some y dold : fcam y i = c -> ft_cam (x_fea y i) = ft_cam ff -> DrDP y k i <> v0 ->
  exists g, transfer frame k y i dold = Some g /\ ft_cam g = Z.of_nat k /\ ft_Q g = frame (DrDP y k i) /\
    set_parameter dold (norm (DrDP y k i)) = Some (ft_d g) /\ fd_type (ft_d g) = fd_type dold.
Proof.
  intros E1 E2 N. unfold transfer. rewrite E2, cam_ne. pose proof (norm_pos _ N) as P.
  unfold set_parameter, param_of. destruct (fd_type dold) eqn:T.
  - eexists; split; [reflexivity|]. repeat split.
  - eexists; split; [reflexivity|]. repeat split.
  - destruct (Rlt_dec 0 (norm (DrDP y k i))); [|lra]. eexists; split; [reflexivity|]. repeat split.
  - eexists; split; [reflexivity|]. repeat split.
Qed.
Lemma trf_bearing dold ign : exists g, transfer frame k x i dold = Some g /\
  dV (fun t => bearing (transfer frame k (X t) i dold)) (Mmul (ft_Q g) (vx (row ign)) (vy (row ign))).
Proof.
  destruct (transfer_some x dold eq_refl eq_refl ND) as (g & Hg & _ & HQ & _). exists g. split; [exact Hg|]. rewrite HQ. fold DD Qo.
  eapply dV_loc; [|apply trf_unit]. destruct near as (e & He & N). exists e. split; [exact He|]. intros t Ht. specialize (N t Ht).
  destruct (transfer_some (X t) dold eq_refl eq_refl N) as (g' & -> & _ & HQ' & _). cbn [bearing]. rewrite HQ'. symmetry. apply GF, N.
Qed.
Lemma trf_param dold : fd_type dold = REGULAR -> dR (fun t => param (transfer frame k (X t) i dold)) (vz (row false)).
Proof.
  intros T. eapply dR_loc; [|apply trf_norm]. destruct near as (e & He & N). exists e. split; [exact He|]. intros t Ht. specialize (N t Ht).
  destruct (transfer_some (X t) dold eq_refl eq_refl N) as (g' & -> & _ & _ & S & _). cbn [param].
  unfold set_parameter, param_of in S. rewrite T in S. cbn in S. injection S as S. now rewrite <- S.
Qed.
Lemma trf_dist dold : representable (fd_type dold) (norm DD) -> exists g, transfer frame k x i dold = Some g /\
  get_distance (ft_d g) = norm DD.
Proof.
  intros H. destruct (transfer_some x dold eq_refl eq_refl ND) as (g & Hg & _ & _ & S & T). exists g. split; [exact Hg|].
  fold DD in S. unfold set_parameter in S. pose proof (round_trip (fd_type dold) (norm DD) H) as RT. unfold get_distance.
  destruct (param_of (fd_type dold) (norm DD)) as [p|] eqn:Ep; [|discriminate]. cbn in S. injection S as S. rewrite <- S. cbn [fd_type fd_p].
  destruct RT as (p' & Hp & Hd). congruence.
Qed.
(** same point *)
Lemma trf_point dold : representable (fd_type dold) (norm DD) -> exists g, transfer frame k x i dold = Some g /\
  in_imu (qCM x k) (MrMC x k) (ray g) = landmark_out x i.
Proof.
  intros H. destruct (trf_dist dold H) as (g & Hg & Hd). exists g. split; [exact Hg|].
  destruct (transfer_some x dold eq_refl eq_refl ND) as (g' & Hg' & _ & HQ & _). rewrite Hg in Hg'. injection Hg' as <-.
  unfold in_imu, ray. rewrite Hd, HQ. fold DD. rewrite (proj2 (GF DD ND)). unfold unit. rewrite vscale_scale, Rinv_r, vscale_1.
  2: { pose proof (norm_pos _ ND). lra. }
  unfold DD, DrDP, qDC, CrCD, landmark_out. fold c. rewrite mv_mm, rot_inv_l by apply qk_rot. rewrite mv_sub, rot_inv_l by apply qcc_rot.
  fold ff. generalize (mv (mt (qCM x c)) (ray ff)) (MrMC x k) (MrMC x c). gv.
Qed.
End TRF.

(** own camera: identity *)
Lemma own_row frame ign k x i n tv : (i < d_max n)%nat -> ft_cam (x_fea x i) = Z.of_nat k -> row_mul n (transfer_jac frame ign k x i) tv = tv (Fea i).
Proof.
  intros Hi E. rewrite (row_support n _ tv [Fea i]).
  - unfold fsum. cbn [fold_right]. unfold transfer_jac. rewrite E, Z.eqb_refl, Nat.eqb_refl, mv_m1. apply vadd_0_r.
  - repeat (apply NoDup_cons; [cbn; intuition congruence|]); apply NoDup_nil.
  - intros s [<-|[]]. exact Hi.
  - intros s Hs Hn. unfold transfer_jac. rewrite E, Z.eqb_refl. destruct s as [| | | | |j|j|j|j|j]; try reflexivity.
    destruct (Nat.eqb_spec j i) as [->|_]; [exfalso; apply Hn; cbn; tauto|reflexivity].
Qed.
