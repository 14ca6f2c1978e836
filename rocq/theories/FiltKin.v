From Coq Require Import Reals ZArith List Bool Arith Lia Lra Nsatz.
From Verif Require Import Geo Lie DistModel DistSpec DistProofs FiltModel FiltSpec FiltProofs FiltJac FiltFull.
Import ListNotations.
Local Open Scope R_scope.

Section K.
Variables (n : dims) (P : params).

Lemma pred_pos im ip dt x : x_pos (predict n P im ip no_noise dt x) = vadd (x_pos x) (vscale dt (world_velocity x)).
Proof. unfold predict, no_noise, world_velocity. cbn [x_pos]. rewrite vscale_v0, vsub_0_r. generalize (x_pos x) (mv (x_att x) (x_vel x)). gv. Qed.
Lemma pred_att im ip dt x : x_att (predict n P im ip no_noise dt x) = mm (x_att x) (expm (vscale dt (body_rate im x))).
Proof. unfold predict, no_noise, body_rate. cbn [x_att]. now rewrite vscale_v0, vadd_0_r. Qed.
Lemma pred_vel im ip dt x : x_vel (predict n P im ip no_noise dt x) =
  vsub (x_vel x) (vscale dt (vadd (cross (body_rate im x) (x_vel x)) (vadd (specific_force im x) (mv (mt (x_att x)) (p_g P))))).
Proof.
  unfold predict, no_noise, body_rate, specific_force, imu_acc_err. cbn [x_vel]. rewrite !vscale_v0, vadd_0_r, vsub_0_r.
  rewrite mv_madd, mv_m1, mv_mneg, skew_cross. generalize (vsub (i_gyr im) (x_gyb x)) (vsub (i_acc im) (x_acb x)) (mv (mt (x_att x)) (p_g P)) (x_vel x). gv.
Qed.
Lemma pred_const im ip dt x : let y := predict n P im ip no_noise dt x in
  x_acb y = x_acb x /\ x_gyb y = x_gyb x /\ (forall c, MrMC y c = MrMC x c) /\ (forall c, qCM y c = qCM x c) /\
  (forall k, x_pop y k = x_pop x k) /\ (forall k, x_poa y k = x_poa x k) /\ a_calib (x_aux y) = a_calib (x_aux x).
Proof.
  cbv zeta. unfold predict, no_noise, MrMC, qCM. cbn [x_acb x_gyb x_vep x_vea x_pop x_poa x_aux a_calib a_MrMC a_qCM].
  rewrite !vscale_v0, !vadd_0_r. repeat (split; [try reflexivity|]); intros; try reflexivity;
    try (destruct (a_calib (x_aux x)));
    try (destruct (_ <? _)%nat; [|reflexivity]); rewrite ?vscale_v0, ?vadd_0_r, ?expm_0, ?mm_1_l; reflexivity.
Qed.

(** ** the rotation integrates exactly *)
Lemma expm_form a w : norm w <> 0 ->
  expm (vscale a w) = madd m1 (madd (mscale (sin (a * norm w) / norm w) (skew w)) (mscale ((1 - cos (a * norm w)) / (norm w * norm w)) (mm (skew w) (skew w)))).
Proof.
  intros N. unfold expm. rewrite norm_scale. set (th := norm w) in *.
  assert (S1 : sinc (Rabs a * th) * a = sin (a * th) / th).
  { unfold sinc. destruct (Req_EM_T (Rabs a * th) 0) as [E|E].
    - apply Rmult_integral in E as [E|E]; [|contradiction]. assert (a = 0) by (destruct (Req_dec a 0); auto; apply Rabs_no_R0 in H; contradiction). subst. rewrite !Rmult_0_l, sin_0. field. auto.
    - assert (A0 : a <> 0) by (intros ->; apply E; rewrite Rabs_R0; ring).
      unfold Rabs. destruct (Rcase_abs a); [replace (- a * th) with (- (a * th)) by ring; rewrite sin_neg|]; field; auto. }
  assert (C1 : cosc (Rabs a * th) * (a * a) = (1 - cos (a * th)) / (th * th)).
  { unfold cosc. destruct (Req_EM_T (Rabs a * th) 0) as [E|E].
    - apply Rmult_integral in E as [E|E]; [|contradiction]. assert (a = 0) by (destruct (Req_dec a 0); auto; apply Rabs_no_R0 in H; contradiction). subst. rewrite !Rmult_0_l, cos_0. field. auto.
    - assert (A0 : a <> 0) by (intros ->; apply E; rewrite Rabs_R0; ring).
      unfold Rabs. destruct (Rcase_abs a); [replace (- a * th) with (- (a * th)) by ring; rewrite cos_neg|]; field; auto. }
  rewrite <- S1, <- C1. generalize (sinc (Rabs a * th)) (cosc (Rabs a * th)) w. clear. intros s c w. veq.
Qed.
Lemma expm_add a b w : mm (expm (vscale a w)) (expm (vscale b w)) = expm (vscale (a + b) w).
Proof.
  destruct (Req_dec (norm w) 0) as [Z|N].
  - apply norm_zero in Z. subst. now rewrite !vscale_v0, expm_0, mm_1_l.
  - rewrite !expm_form by auto. rewrite Rmult_plus_distr_r, sin_plus, cos_plus.
    assert (Q : norm w * norm w = dot w w) by apply norm_sq. set (th := norm w) in *.
    pose proof (sin2_cos2 (a * th)) as H1. pose proof (sin2_cos2 (b * th)) as H2. unfold Rsqr in *.
    set (s1 := sin (a * th)) in *. set (c1 := cos (a * th)) in *. set (s2 := sin (b * th)) in *. set (c2 := cos (b * th)) in *. clearbody s1 c1 s2 c2 th.
    assert (K : forall A B A' B' : R, mm (madd m1 (madd (mscale A (skew w)) (mscale B (mm (skew w) (skew w))))) (madd m1 (madd (mscale A' (skew w)) (mscale B' (mm (skew w) (skew w)))))
      = madd m1 (madd (mscale (A + A' - dot w w * (A * B' + B * A')) (skew w)) (mscale (B + B' + A * A' - dot w w * (B * B')) (mm (skew w) (skew w))))).
    { clear. intros. veq. }
    rewrite K, <- Q. do 2 f_equal; f_equal; field; auto.
Qed.

(** ** iterating *)
Local Notation step := (step n P).
Lemma iter_gyb im dt k x : x_gyb (Nat.iter k (step im dt) x) = x_gyb x.
Proof.
  induction k; [reflexivity|]. change (Nat.iter (S k) (step im dt) x) with (step im dt (Nat.iter k (step im dt) x)). rewrite <- IHk.
  exact (proj1 (proj2 (pred_const im true dt (Nat.iter k (step im dt) x)))).
Qed.
Lemma iter_att im dt k x : x_att (Nat.iter k (step im dt) x) = mm (x_att x) (expm (vscale (INR k * dt) (body_rate im x))).
Proof.
  induction k.
  - cbn [Nat.iter nat_rect]. replace (INR 0 * dt) with 0 by (cbn; ring). rewrite vscale_0, expm_0, mm_1_r. reflexivity.
  - change (Nat.iter (S k) (step im dt) x) with (step im dt (Nat.iter k (step im dt) x)). unfold FiltSpec.step at 1. rewrite pred_att. unfold body_rate. rewrite iter_gyb. fold (body_rate im x).
    rewrite IHk, <- mm_assoc, expm_add, S_INR. do 2 f_equal. f_equal. ring.
Qed.

(** without measurements *)
Local Notation coast := (coast n P).
Lemma coast_step dt x : x_att (coast dt x) = x_att x /\ x_vel (coast dt x) = x_vel x /\
  x_pos (coast dt x) = vadd (x_pos x) (vscale dt (world_velocity x)).
Proof.
  unfold FiltSpec.coast. rewrite pred_att, pred_vel, pred_pos. unfold body_rate, specific_force, no_meas. cbn [i_gyr i_acc].
  rewrite vsub_diag, vscale_v0, expm_0, mm_1_r. split; [reflexivity|split; [|reflexivity]].
  generalize (x_acb x) (mv (mt (x_att x)) (p_g P)) (x_vel x). gv.
Qed.
Lemma coast_iter dt k x : let y := Nat.iter k (coast dt) x in
  x_att y = x_att x /\ world_velocity y = world_velocity x /\ x_pos y = vadd (x_pos x) (vscale (INR k * dt) (world_velocity x)).
Proof.
  cbv zeta. assert (G : x_att (Nat.iter k (coast dt) x) = x_att x /\ x_vel (Nat.iter k (coast dt) x) = x_vel x /\ x_pos (Nat.iter k (coast dt) x) = vadd (x_pos x) (vscale (INR k * dt) (world_velocity x))).
  { induction k.
    - cbn [Nat.iter nat_rect INR]. rewrite Rmult_0_l, vscale_0, vadd_0_r. auto.
    - change (Nat.iter (S k) (coast dt) x) with (coast dt (Nat.iter k (coast dt) x)). destruct IHk as (A & V & X).
      destruct (coast_step dt (Nat.iter k (coast dt) x)) as (-> & -> & ->). split; [auto|split; auto].
      unfold world_velocity in *. rewrite A, V, X, S_INR. generalize (mv (x_att x) (x_vel x)) (x_pos x) (INR k) dt. gv. }
  destruct G as (A & V & X). unfold world_velocity at 1. rewrite A, V. auto.
Qed.

(** ** first order in the step length *)
Lemma pos_rate im ip x : dV (fun dt => x_pos (predict n P im ip no_noise dt x)) (world_velocity x).
Proof. eapply dV_ext; [intros t; symmetry; apply pred_pos|]. apply dV_line. Qed.
Lemma att_rate im ip x : dM (fun dt => x_att (predict n P im ip no_noise dt x)) (mm (x_att x) (skew (body_rate im x))).
Proof.
  eapply dM_ext; [intros t; symmetry; apply pred_att|]. eapply dM_eq; [apply dM_mm; [apply dM_const|apply dM_expm_0; [|apply dV_scale_line]; apply vscale_0]|].
  cbv beta. generalize (x_att x) (expm (vscale 0 (body_rate im x))) (skew (body_rate im x)). gv.
Qed.
Lemma vel_rate im ip x : is_rot (x_att x) ->
  dV (fun dt => world_velocity (predict n P im ip no_noise dt x)) (vadd (mv (x_att x) (specific_force im x)) (p_g P)).
Proof.
  intros H. unfold world_velocity.
  eapply dV_eq.
  - apply dV_neg, dV_mv; [apply att_rate|]. eapply dV_ext; [intros t; symmetry; apply pred_vel|]. apply dV_sub; [apply dV_const|apply dV_scale_line].
  - cbv beta. rewrite pred_vel, pred_att, vscale_0, vscale_0, expm_0, mm_1_r, vsub_0_r, mv_mm, skew_cross.
    rewrite mv_sub, mv_0, !mv_add, (rot_inv_r (x_att x)) by auto.
    generalize (mv (x_att x) (cross (body_rate im x) (x_vel x))) (mv (x_att x) (specific_force im x)) (p_g P). gv.
Qed.

(** ** features follow a static point *)
Lemma dV_norm_unit s s' : s 0 <> v0 -> dV s s' -> exists dn, dV (fun t => unit (s t)) dn /\
  dn = vscale (/ norm (s 0)) (vsub s' (vscale (dot (unit (s 0)) s') (unit (s 0)))).
Proof.
  intros N D. pose proof (nonzero_norm _ N) as NN. eexists. split.
  - unfold unit. apply dV_scale; [|exact D]. apply dR_inv; [exact NN|]. apply dR_norm; [exact N|exact D].
  - cbv beta. unfold unit.
    assert (H : - (dot (s 0) s' / norm (s 0)) / (norm (s 0) * norm (s 0)) = - (dot (s 0) s' * / norm (s 0) * / norm (s 0) * / norm (s 0))).
    { field. auto. }
    rewrite H. generalize (/ norm (s 0)) (s 0) s'. gv.
Qed.

Lemma in_camera_rate q r p W R_ v w : is_rot q -> is_rot (R_ 0) ->
  dV W (vneg (mv (R_ 0) v)) -> dM R_ (mm (R_ 0) (skew w)) ->
  dV (fun t => in_camera q r p (W t) (R_ t))
     (vsub (vneg (cross (mv q w) (in_camera q r p (W 0) (R_ 0)))) (mv q (vsub (cross w r) v))).
Proof.
  intros Hq HR DW DR. unfold in_camera. eapply dV_eq.
  - apply dV_mv; [apply dM_const|]. apply dV_sub; [apply dV_mv; [apply dM_mt, DR|apply dV_sub; [apply dV_const|apply DW]]|apply dV_const].
  - cbv beta. rewrite mt_mm, mt_skew, mv_mm, !skew_cross, (rot_cross q) by auto.
    rewrite mv_mscale, vscale_0, vadd_0_l. rewrite <- (mv_neg q), <- (mv_sub q). f_equal.
    assert (E : mv (mt (R_ 0)) (vsub v0 (vneg (mv (R_ 0) v))) = v).
    { replace (vsub v0 (vneg (mv (R_ 0) v))) with (mv (R_ 0) v) by (generalize (mv (R_ 0) v); gv). now apply rot_inv_l. }
    rewrite E. generalize (mv (mt (R_ 0)) (vsub p (W 0))) w v r. gv.
Qed.

Lemma norm_v0 : norm v0 = 0.
Proof. unfold norm. replace (dot v0 v0) with 0; [apply sqrt_0|]. unfold dot, v0. cbn. ring. Qed.
Lemma nor_unit Q : is_rot Q -> dot (nor Q) (nor Q) = 1.
Proof. intros H. unfold nor. rewrite rot_dot by auto. unfold dot. cbn. ring. Qed.

Theorem feature_follows im ip x i c p W R_ :
  wf n x -> (i < d_max n)%nat -> cam_of n (x_fea x i) = Some c ->
  let f := x_fea x i in
  0 < get_distance (ft_d f) -> smooth_dist (fd_type (ft_d f)) (fd_p (ft_d f)) ->
  W 0 = x_pos x -> R_ 0 = x_att x -> dV W (world_velocity x) -> dM R_ (mm (R_ 0) (skew (body_rate im x))) ->
  in_camera (qCM x c) (MrMC x c) p (x_pos x) (x_att x) = vscale (get_distance (ft_d f)) (nor (ft_Q f)) ->
  let s := fun t => in_camera (qCM x c) (MrMC x c) p (W t) (R_ t) in
  exists dn dp,
    dV (fun dt => nor (ft_Q (x_fea (predict n P im ip no_noise dt x) i))) dn /\ dV (fun t => unit (s t)) dn /\
    dR (fun dt => fd_p (ft_d (x_fea (predict n P im ip no_noise dt x) i))) dp /\
    dR (fun t => param_fun (fd_type (ft_d f)) (norm (s t))) dp.
Proof.
  intros Wf Hi Hc f Dp Sm W0 R0 DW DR Hs s.
  pose proof (wf_fea n x Wf i Hi) as HQ. fold f in HQ.
  assert (Hq : is_rot (qCM x c)) by (apply (qCM_rot n); auto; exact (cam_of_lt _ _ _ Hc)).
  set (d := get_distance (ft_d f)) in *. set (a := nor (ft_Q f)) in *. assert (Ha : dot a a = 1) by now apply nor_unit.
  assert (S0 : s 0 = vscale d a) by (unfold s; now rewrite W0, R0).
  assert (Na : norm a = 1) by now apply norm_unit.
  assert (Nd : norm (s 0) = d) by (rewrite S0, norm_scale, Na, Rabs_pos_eq; lra).
  assert (Us : unit (s 0) = a). { unfold unit. rewrite Nd, S0, vscale_scale, Rinv_l, vscale_1; auto. lra. }
  set (w := body_rate im x) in *. set (q := qCM x c) in *. set (r := MrMC x c) in *.
  set (cr := cam_ror q w). set (cv := cam_vel q r w (x_vel x)).
  assert (DS : dV s (vsub (vneg (cross cr (vscale d a))) cv)).
  { rewrite <- S0. apply in_camera_rate; auto; [rewrite R0; apply (wf_att n x Wf)|]. rewrite R0. exact DW. }
  assert (N0 : s 0 <> v0). { intros E. assert (norm (s 0) = 0) by (rewrite E; apply norm_v0). lra. }
  destruct (dV_norm_unit s _ N0 DS) as (dn & DN & En). rewrite Us, Nd in En.
  pose proof (dR_norm s _ N0 DS) as DD. rewrite Nd, S0 in DD.
  set (s' := vsub (vneg (cross cr (vscale d a))) cv) in *.
  assert (Ds : dot (vscale d a) s' / d = - dot a cv).
  { unfold s'. rewrite dot_scale_l. replace (dot a (vsub (vneg (cross cr (vscale d a))) cv)) with (- dot a cv) by (generalize a cr cv d; clear; intros [[? ?] ?] [[? ?] ?] [[? ?] ?] ?; geo; ring). field. lra. }
  rewrite Ds in DD.
  assert (PF : forall dt, x_fea (predict n P im ip no_noise dt x) i = predict_fea n dt x w v0 f).
  { intros dt. unfold predict. cbn [x_fea]. destruct (i <? d_max n)%nat eqn:E; [|apply Nat.ltb_ge in E; lia]. unfold no_noise. now rewrite noise_off_w. }
  set (k := vadd (vscale (/ d) (cross a cv)) (vsub cr (vscale (dot a cr) a))).
  exists dn, (parameter_derivative (ft_d f) * - dot a cv). split; [|split; [exact DN|split]].
  - eapply dV_ext with (f := fun dt => mv (expm (vscale dt (vneg k))) a).
    { intros dt. rewrite PF, (predict_fea_Q n dt x w v0 f c Hc), nor_mm. fold q r a d. fold cr cv. do 2 f_equal.
      unfold k, dm0, proj, Nmul. generalize (perp1 (ft_Q f)) (perp2 (ft_Q f)) (sqrt dt) (/ d) a cv cr dt. gv. }
    eapply dV_eq; [apply dV_mv; [apply dM_expm_0; [apply vscale_0|apply dV_scale_line]|apply dV_const]|].
    cbv beta. rewrite mv_0, vadd_0_r, skew_cross, En. unfold k, s'.
    assert (Hd : / d * d = 1) by (apply Rinv_l; lra). revert Ha Hd. generalize (/ d). clearbody a cv cr d. clear. intros e Ha Hd.
    destruct a as [[a1 a2] a3], cv as [[c1 c2] c3], cr as [[k1 k2] k3]. unfold dot in Ha. cbn in Ha.
    geo. repeat (match goal with |- (_, _) = (_, _) => f_equal end); nsatz.
  - eapply dR_ext with (f := fun dt => fd_p (ft_d f) + dt * (parameter_derivative (ft_d f) * - dot a cv)).
    { intros dt. rewrite PF, (predict_fea_p n dt x w v0 f c Hc). fold q r a. fold cv. cbn [vz v0 snd]. ring. }
    eapply dR_eq; [apply dR_plus; [apply dR_const|apply dR_mult; [apply dR_id|apply dR_const]]|cbv beta; ring].
  - assert (C := dR_comp (param_fun (fd_type (ft_d f))) (fun t => norm (s t)) (- dot a cv) (parameter_derivative (ft_d f)) DD).
    apply C. cbv beta. rewrite Nd. pose proof (proj2 (parameter_derivative_ok (fd_type (ft_d f)) (fd_p (ft_d f)) Sm)) as E.
    unfold d, get_distance. destruct (ft_d f); exact E.
Qed.
End K.
