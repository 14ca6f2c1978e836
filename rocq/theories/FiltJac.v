From Coq Require Import Reals ZArith List Bool Arith Lia Lra.
From Verif Require Import Geo Lie DistModel DistSpec DistProofs FiltModel FiltSpec FiltProofs.
Import ListNotations.
Local Open Scope R_scope.

Ltac gv := clear; repeat (let z := fresh "zz" in intro z); veq.

Lemma predict_fea_Q n dt x w u f c : cam_of n f = Some c ->
  ft_Q (predict_fea n dt x w u f) =
  mm (expm (vadd (dm0 dt (nor (ft_Q f)) (cam_vel (qCM x c) (MrMC x c) w (x_vel x)) (cam_ror (qCM x c) w) (get_distance (ft_d f)))
                 (vscale (sqrt dt) (Nmul (ft_Q f) (vx u) (vy u))))) (ft_Q f).
Proof. intros H. unfold predict_fea. now rewrite H. Qed.
Lemma predict_fea_p n dt x w u f c : cam_of n f = Some c ->
  fd_p (ft_d (predict_fea n dt x w u f)) =
  fd_p (ft_d f) - dt * parameter_derivative (ft_d f) * dot (nor (ft_Q f)) (cam_vel (qCM x c) (MrMC x c) w (x_vel x)) + vz u * sqrt dt.
Proof. intros H. unfold predict_fea. now rewrite H. Qed.

Lemma rows_vx Q X r v : vx (mv (rows Q X r) v) = dot (M1 Q) (mv X v).
Proof. unfold rows. cbn [mv vx fst r0]. rewrite <- (mt_mt X) at 2. now rewrite <- mv_dot. Qed.
Lemma rows_vy Q X r v : vy (mv (rows Q X r) v) = dot (M2c Q) (mv X v).
Proof. unfold rows. cbn [mv vy fst snd r1]. rewrite <- (mt_mt X) at 2. now rewrite <- mv_dot. Qed.
Lemma rows_vz Q X r v : vz (mv (rows Q X r) v) = dot r v. Proof. reflexivity. Qed.
Lemma fea_vx Qo Q X y r e v : vx (mv (fea_block Qo Q (MtXM Qo X Q) y r e) v) = dot (M1 Qo) (vadd (mv X (Mmul Q (vx v) (vy v))) (vscale (vz v) y)).
Proof. unfold fea_block, MtXM, Mmul, M2c. fold (M1 Q). generalize (M1 Qo) (M1 Q) (perp1 Q). intros. geo. ring. Qed.
Lemma fea_vy Qo Q X y r e v : vy (mv (fea_block Qo Q (MtXM Qo X Q) y r e) v) = dot (M2c Qo) (vadd (mv X (Mmul Q (vx v) (vy v))) (vscale (vz v) y)).
Proof. unfold fea_block, MtXM, Mmul. fold (M1 Q) (M2c Q). generalize (M2c Qo) (M1 Q) (M2c Q). intros. geo. ring. Qed.
Lemma fea_vz Qo Q b y r e v : vz (mv (fea_block Qo Q b y r e) v) = dot r (Mmul Q (vx v) (vy v)) + e * vz v.
Proof. unfold fea_block, Mmul. fold (M1 Q) (M2c Q). generalize (M1 Q) (M2c Q). intros. destruct b as [[b11 b12] [b21 b22]]. geo. ring. Qed.

Lemma mv_mneg A z : mv (mneg A) z = vneg (mv A z). Proof. veq. Qed.
Lemma mv_mscale k A z : mv (mscale k A) z = vscale k (mv A z). Proof. veq. Qed.
Lemma mv_madd A B z : mv (madd A B) z = vadd (mv A z) (mv B z). Proof. veq. Qed.
Lemma mv_proj a z : mv (proj a) z = vsub z (vscale (dot a z) a). Proof. unfold proj. veq. Qed.
Lemma lin7 N k1 b1 k2 b2 k3 b3 E p k4 k5 b4 k6 b5 k7 b6 k8 b7 :
  vadd (vneg (vscale k1 (mv N b1))) (vadd (vscale k2 (mv N b2)) (vadd (vadd (vadd (vscale k3 (mv N b3)) E)
    (vscale p (vneg (vscale k4 (vscale k5 (mv N b4)))))) (vadd (vscale k6 (mv N b5)) (vadd (vneg (vscale k7 (mv N b6))) (vneg (vscale k8 (mv N b7)))))))
  = vadd (mv N (vadd (vscale (- k1) b1) (vadd (vscale k2 b2) (vadd (vscale k3 b3) (vadd (vscale (- (p * (k4 * k5))) b4)
      (vadd (vscale k6 b5) (vadd (vscale (- k7) b6) (vscale (- k8) b7)))))))) E.
Proof.
  rewrite !mv_add, !mv_scale. generalize (mv N b1) (mv N b2) (mv N b3) (mv N b4) (mv N b5) (mv N b6) (mv N b7). clear. intros. veq.
Qed.
Lemma noise_off_w dt w (nz : V3) : nz = v0 -> vadd w (vscale (/ sqrt dt) nz) = w.
Proof. intros ->. now rewrite vscale_v0, vadd_0_r. Qed.

(** ** what the features' predicted values do along a curve of inputs *)
Section FEA.
Variables (n : dims) (dt : R) (x : state) (i c : nat).
Let f := x_fea x i.
Let Q := ft_Q f.
Let a := nor Q.
Let d := get_distance (ft_d f).
Hypothesis W : wf n x.
Hypothesis Hi : (i < d_max n)%nat.
Hypothesis Hc : cam_of n f = Some c.
Hypothesis Sm : smooth_fea f.

Lemma rotQ : is_rot Q. Proof. now apply (wf_fea n x W). Qed.

Lemma dR_dist p' : dR (fun t => get_distance {| fd_type := fd_type (ft_d f); fd_p := fd_p (ft_d f) + t * p' |}) (distance_derivative (ft_d f) * p').
Proof.
  pose proof (dR_comp (fun q => get_distance {| fd_type := fd_type (ft_d f); fd_p := q |}) (fun t => fd_p (ft_d f) + t * p') p' (distance_derivative (ft_d f))) as C.
  apply C.
  - eapply dR_eq; [apply dR_plus; [apply dR_const|apply dR_mult; [apply dR_id|apply dR_const]]|cbv beta; ring].
  - cbv beta. replace (fd_p (ft_d f) + 0 * p') with (fd_p (ft_d f)) by ring.
    pose proof (distance_derivative_ok (fd_type (ft_d f)) (fd_p (ft_d f)) (proj2 Sm)) as D. destruct (ft_d f); exact D.
Qed.
Lemma dR_pd p' : dR (fun t => parameter_derivative {| fd_type := fd_type (ft_d f); fd_p := fd_p (ft_d f) + t * p' |}) (parameter_derivative_combined (ft_d f) * p').
Proof.
  pose proof (dR_comp (fun q => parameter_derivative {| fd_type := fd_type (ft_d f); fd_p := q |}) (fun t => fd_p (ft_d f) + t * p') p' (parameter_derivative_combined (ft_d f))) as C.
  apply C.
  - eapply dR_eq; [apply dR_plus; [apply dR_const|apply dR_mult; [apply dR_id|apply dR_const]]|cbv beta; ring].
  - cbv beta. replace (fd_p (ft_d f) + 0 * p') with (fd_p (ft_d f)) by ring.
    pose proof (combined_ok (fd_type (ft_d f)) (fd_p (ft_d f)) (proj2 Sm)) as D. destruct (ft_d f); exact D.
Qed.

Lemma d0_eq (p' : R) : {| fd_type := fd_type (ft_d f); fd_p := fd_p (ft_d f) + 0 * p' |} = ft_d f.
Proof. destruct (ft_d f) as [ty p]. cbn. f_equal. ring. Qed.
Lemma Q0_eq u : mm (expm (Nmul Q (0 * u) (0 * u))) Q = Q.
Proof. replace (Nmul Q (0 * u) (0 * u)) with v0; [now rewrite expm_0, mm_1_l|]. unfold Nmul. generalize (perp1 Q) (perp2 Q). gv. Qed.
Lemma Q0_eq2 u u' : mm (expm (Nmul Q (0 * u) (0 * u'))) Q = Q.
Proof. replace (Nmul Q (0 * u) (0 * u')) with v0; [now rewrite expm_0, mm_1_l|]. unfold Nmul. generalize (perp1 Q) (perp2 Q). gv. Qed.

(** derivative of the state map *)
Section STATE.
Variables (P : params) (im : imu) (ip : bool) (tv : tangent).
Let w := vsub (i_gyr im) (x_gyb x).
Let q := qCM x c.
Let rr := MrMC x c.
Let cr := cam_ror q w.
Let cv := cam_vel q rr w (x_vel x).
Let dm := dm0 dt a cv cr d.
Let u := tv (Fea i).
Let cr' := vadd (cross (vq x tv c) cr) (vneg (mv q (tv Gyb))).
Let cv' := vadd (cross (vq x tv c) cv) (vadd (cross (mv q rr) (mv q (tv Gyb))) (vsub (mv q (cross w (vr x tv c))) (mv q (tv Vel)))).
Let a' := Mmul Q (vx u) (vy u).
Let d' := distance_derivative (ft_d f) * vz u.

Let X t := boxplus x (along tv t).
Let wt t := vsub (i_gyr im) (x_gyb (X t)).

Lemma q_rot : is_rot q. Proof. apply (qCM_rot n); auto. exact (cam_of_lt _ _ _ Hc). Qed.

Lemma s_w : dV wt (vneg (tv Gyb)).
Proof. eapply dV_eq; [apply dV_sub; [apply dV_const|apply dV_line]|]. generalize (tv Gyb). gv. Qed.
Lemma s_w0 : wt 0 = w. Proof. unfold wt, X, along. cbn [boxplus x_gyb]. now rewrite vscale_0, vadd_0_r. Qed.
Lemma s_vel0 : x_vel (X 0) = x_vel x. Proof. unfold X, along. cbn [boxplus x_vel]. now rewrite vscale_0, vadd_0_r. Qed.
Lemma s_cr : dV (fun t => cam_ror (qCM (X t) c) (wt t)) cr'.
Proof.
  eapply dV_eq; [apply dV_mv; [apply qCM_box|apply s_w]|]. cbv beta. fold (X 0). rewrite s_w0. unfold X at 1. rewrite qCM_box0.
  rewrite mv_mm, skew_cross, mv_neg. reflexivity.
Qed.
Lemma s_cv : dV (fun t => cam_vel (qCM (X t) c) (MrMC (X t) c) (wt t) (x_vel (X t))) cv'.
Proof.
  eapply dV_eq.
  - apply dV_mv; [apply qCM_box|apply dV_sub; [apply dV_cross; [apply s_w|apply MrMC_box]|apply dV_line]].
  - cbv beta. fold (X 0). rewrite s_w0, s_vel0. unfold X. rewrite qCM_box0, MrMC_box0.
    rewrite mv_mm, skew_cross. unfold cv', cv, cam_vel. rewrite (rot_cross q) by apply q_rot.
    fold q rr. rewrite <- mv_sub, <- mv_add. do 2 f_equal. generalize (tv Gyb) (tv Vel) (vr x tv c) w rr. gv.
Qed.
Lemma s_cr0 : cam_ror (qCM (X 0) c) (wt 0) = cr. Proof. rewrite s_w0. unfold X. now rewrite qCM_box0. Qed.
Lemma s_cv0 : cam_vel (qCM (X 0) c) (MrMC (X 0) c) (wt 0) (x_vel (X 0)) = cv.
Proof. rewrite s_w0, s_vel0. unfold X. now rewrite qCM_box0, MrMC_box0. Qed.
Lemma s_a : dV (fun t => nor (ft_Q (x_fea (X t) i))) a'.
Proof. exact (dV_nor_box Q u rotQ). Qed.
Lemma s_Q0 : ft_Q (x_fea (X 0) i) = Q.
Proof. exact (Q0_eq2 (vx u) (vy u)). Qed.
Lemma s_d : dR (fun t => get_distance (ft_d (x_fea (X t) i))) d'.
Proof. exact (dR_dist (vz u)). Qed.
Lemma s_d0 : ft_d (x_fea (X 0) i) = ft_d f.
Proof. exact (d0_eq (vz u)). Qed.

Let D := vscale (- dt) (vadd (vadd (vscale (/ d) (vadd (cross a' cv) (cross a cv'))) (vscale (- d' / (d * d)) (cross a cv)))
                             (vsub cr' (vadd (vscale (dot a cr) a') (vscale (dot a' cr + dot a cr') a)))).
Let out t := predict n P im ip no_noise dt (X t).
Let Qo := mm (expm dm) Q.

Lemma out_fea t : x_fea (out t) i = predict_fea n dt (X t) (wt t) v0 (x_fea (X t) i).
Proof.
  unfold out, predict. cbn [x_fea]. destruct (i <? d_max n)%nat eqn:E; [|apply Nat.ltb_ge in E; lia].
  unfold no_noise. now rewrite noise_off_w.
Qed.
Lemma out_Q t : ft_Q (x_fea (out t) i) =
  mm (expm (vadd (dm0 dt (nor (ft_Q (x_fea (X t) i))) (cam_vel (qCM (X t) c) (MrMC (X t) c) (wt t) (x_vel (X t)))
       (cam_ror (qCM (X t) c) (wt t)) (get_distance (ft_d (x_fea (X t) i)))) v0)) (ft_Q (x_fea (X t) i)).
Proof.
  rewrite out_fea, (predict_fea_Q n dt (X t) (wt t) v0 (x_fea (X t) i) c) by exact Hc. do 3 f_equal.
  unfold Nmul. generalize (perp1 (ft_Q (x_fea (X t) i))) (perp2 (ft_Q (x_fea (X t) i))). gv.
Qed.
Lemma out_Q0 : ft_Q (x_fea (out 0) i) = Qo.
Proof. rewrite out_Q, vadd_0_r, s_cv0, s_cr0, s_Q0, s_d0. reflexivity. Qed.
Lemma out_nor : dV (fun t => nor (ft_Q (x_fea (out t) i))) (vadd (cross (mv (Lmat dm) D) (mv (expm dm) a)) (mv (expm dm) a')).
Proof.
  eapply dV_ext; [intros t; symmetry; rewrite out_Q, nor_mm; reflexivity|].
  eapply dV_eq.
  - apply dV_bearing; [apply dV_dm; [apply s_a|apply s_cv|apply s_cr|apply s_d|apply dV_const|cbv beta; rewrite s_d0; exact (proj1 Sm)]|apply s_a].
  - cbv beta. rewrite s_cv0, s_cr0, s_Q0, s_d0, !vadd_0_r. reflexivity.
Qed.

(** the code's row, as a sum of 3x3 matrices *)
Let nL := mm (skew (mv (expm dm) a)) (Lmat dm).
Let pd := parameter_derivative (ft_d f).
Let XV := mneg (mscale (dt / d) (mm nL (mm (skew a) q))).
Let XG := mscale dt (mm nL (mm (madd (mneg (proj a)) (mscale (1 / d) (mm (skew a) (skew (mv q rr))))) q)).
Let XA := madd (mneg (mscale dt (mm nL (mm (proj a) (skew cr))))) (mneg (mscale (dt / d) (mm nL (mm (skew a) (skew cv))))).
Let XP := mscale (dt / d) (mm nL (mm (skew a) (mm q (skew w)))).
Let yF := vadd (mv (bear_mid dt a cv cr d dm) a')
   (vscale (vz u) (vneg (vscale (distance_derivative (ft_d f) / (d * d)) (vscale dt (mv (mm (skew (nor Qo)) (Lmat dm)) (mv (skew a) cv)))))).
Let y := vadd (mv XV (tv Vel)) (vadd (mv XG (tv Gyb)) (vadd yF (vadd (mv XP (vr x tv c)) (mv XA (vq x tv c))))).

Lemma y_eq : y = vadd (cross (mv (Lmat dm) D) (mv (expm dm) a)) (mv (expm dm) a').
Proof.
  assert (NQ : nor Qo = mv (expm dm) a) by apply nor_mm.
  unfold y, yF, XV, XG, XA, XP, bear_mid. rewrite NQ, (mm_assoc _ (Lmat dm)). fold nL.
  assert (DN : forall z, cross (mv (Lmat dm) z) (mv (expm dm) a) = vneg (mv nL z)).
  { intros z. unfold nL. rewrite mv_mm, skew_cross. generalize (mv (Lmat dm) z) (mv (expm dm) a). gv. }
  rewrite DN. unfold D, cr', cv', d'. unfold Rdiv. rewrite !Rinv_mult.
  rewrite ?mv_mneg, ?mv_mscale, ?mv_madd, ?mv_mneg, ?mv_mscale, ?mv_madd, ?mv_mm, ?mv_madd, ?mv_mneg, ?mv_mscale, ?mv_madd, ?mv_mm, ?mv_mneg, ?mv_mscale, ?mv_m1, ?mv_outer, ?mv_proj, ?skew_cross.
  rewrite lin7. f_equal. rewrite <- mv_neg. f_equal.
  generalize (mv q (tv Vel)) (mv q (tv Gyb)) (mv q rr) (mv q (cross w (vr x tv c))) (vq x tv c) cr cv (/ d) (distance_derivative (ft_d f)) (vz u) a a'. gv.
Qed.

Let J := jac_state n P im x dt.
Lemma row_fea : exists T, jmul n J tv (Fea i) = T /\
  vx T = dot (M1 Qo) y /\ vy T = dot (M2c Qo) y /\
  vz T = (dt * pd) * dot a (mv q (tv Vel)) - dt * pd * dot a (cross (mv q rr) (mv q (tv Gyb)))
       + (dot (vscale (- dt * pd) cv) a' + (1 - dt * parameter_derivative_combined (ft_d f) * dot a cv) * vz u)
       - dt * pd * dot a (mv q (cross w (vr x tv c))) + dt * pd * dot a (cross cv (vq x tv c)).
Proof.
  pose proof (cam_of_lt _ _ _ Hc) as Lc.
  assert (RS : jmul n J tv (Fea i) = fsum (J (Fea i)) tv [Vel; Gyb; Fea i; Vep c; Vea c]).
  { unfold jmul. apply row_support.
    - repeat constructor; cbn; intuition discriminate.
    - intros s Hs. cbn in Hs. decompose [or] Hs; subst; cbn; auto; contradiction.
    - intros s Hs Hn. unfold J, jac_state. fold f. rewrite Hc. destruct s; try reflexivity; try (exfalso; apply Hn; cbn; now auto).
      all: match goal with |- context [(?p =? ?q)%nat] => destruct (Nat.eqb_spec p q) as [Ee|Ne]; [exfalso; apply Hn; cbn; rewrite Ee; tauto|] end.
      all: rewrite ?andb_false_r; reflexivity. }
  eexists. split; [exact RS|]. cbn [fsum fold_right].
  unfold J, jac_state. fold f. rewrite Hc. fold w q rr. fold cr cv. fold Q. fold a d. fold dm. fold Qo. fold nL pd.
  fold XV XG XA XP. rewrite !Nat.eqb_refl, andb_true_r.
  assert (EP : forall row, mv (if a_calib (x_aux x) then rows Qo XP row else mzero) (tv (Vep c)) = mv (rows Qo XP row) (vr x tv c)).
  { intros row. unfold vr. destruct (a_calib (x_aux x)); [reflexivity|]. now rewrite mzero_mv, mv_0. }
  assert (EA : forall row, mv (if a_calib (x_aux x) then rows Qo XA row else mzero) (tv (Vea c)) = mv (rows Qo XA row) (vq x tv c)).
  { intros row. unfold vq. destruct (a_calib (x_aux x)); [reflexivity|]. now rewrite mzero_mv, mv_0. }
  rewrite EP, EA. fold u.
  assert (AX : forall p q, vx (vadd p q) = vx p + vx q) by reflexivity.
  assert (AY : forall p q, vy (vadd p q) = vy p + vy q) by reflexivity.
  assert (AZ : forall p q, vz (vadd p q) = vz p + vz q) by reflexivity.
  split; [|split].
  - rewrite !AX, !rows_vx, fea_vx. fold a'. unfold y. rewrite !dot_add_r. fold yF. unfold yF. rewrite !dot_add_r. cbn [vx v0 fst]. ring.
  - rewrite !AY, !rows_vy, fea_vy. fold a'. unfold y. rewrite !dot_add_r. unfold yF. rewrite !dot_add_r. cbn [vy v0 fst snd]. ring.
  - rewrite !AZ, !rows_vz, fea_vz. fold a'. rewrite !dot_scale_l. rewrite !mv_dot, !mt_mt, !skew_cross. cbn [vz v0 snd]. ring.
Qed.

Lemma Qo_rot : is_rot Qo. Proof. apply rot_mm; [apply expm_rot|exact rotQ]. Qed.
Lemma y_perp : dot (nor Qo) y = 0.
Proof.
  rewrite y_eq. unfold Qo. rewrite nor_mm. fold a. rewrite dot_add_r.
  rewrite rot_dot by apply expm_rot. unfold a, a'. rewrite (Mmul_nor Q) by exact rotQ.
  generalize (mv (Lmat dm) D) (mv (expm dm) (nor Q)). clear. intros [[? ?] ?] [[? ?] ?]. geo. ring.
Qed.

Lemma fea_state_bearing : dV (fun t => nor (ft_Q (x_fea (out t) i)))
   (Mmul (ft_Q (x_fea (out 0) i)) (vx (jmul n J tv (Fea i))) (vy (jmul n J tv (Fea i)))).
Proof.
  destruct row_fea as (T & -> & -> & -> & _). rewrite out_Q0, (Mmul_MT Qo y Qo_rot y_perp), y_eq. apply out_nor.
Qed.
Lemma fea_state_param : dR (fun t => fd_p (ft_d (x_fea (out t) i))) (vz (jmul n J tv (Fea i))).
Proof.
  destruct row_fea as (T & -> & _ & _ & ->).
  eapply dR_ext with (f := fun t => (fd_p (ft_d f) + t * vz u)
     - (dt * parameter_derivative {| fd_type := fd_type (ft_d f); fd_p := fd_p (ft_d f) + t * vz u |})
       * dot (nor (ft_Q (x_fea (X t) i))) (cam_vel (qCM (X t) c) (MrMC (X t) c) (wt t) (x_vel (X t)))).
  { intros t. rewrite out_fea, (predict_fea_p n dt (X t) (wt t) v0 (x_fea (X t) i) c) by exact Hc.
    change (ft_d (x_fea (X t) i)) with {| fd_type := fd_type (ft_d f); fd_p := fd_p (ft_d f) + t * vz u |}. cbn [fd_p vz v0 snd]. ring. }
  eapply dR_eq.
  - apply dR_minus; [apply dR_plus; [apply dR_const|apply dR_mult; [apply dR_id|apply dR_const]]|].
    apply dR_mult; [apply dR_scal, dR_pd|apply dR_dot; [apply s_a|apply s_cv]].
  - cbv beta. rewrite s_cv0, s_Q0, d0_eq. fold pd a. unfold cv'.
    rewrite !dot_add_r, !dot_sub_r, dot_scale_l, (dot_comm cv a').
    assert (CC : dot a (cross (vq x tv c) cv) = - dot a (cross cv (vq x tv c))).
    { generalize a (vq x tv c) cv. clear. intros [[? ?] ?] [[? ?] ?] [[? ?] ?]. geo. ring. }
    rewrite CC. ring.
Qed.
End STATE.

(** derivative of the noise map *)
Section NOISE.
Variables (P : params) (im : imu) (ip : bool) (nu : tangent).
Hypothesis Hdt : 0 < dt.
Let w := vsub (i_gyr im) (x_gyb x).
Let q := qCM x c.
Let rr := MrMC x c.
Let cr := cam_ror q w.
Let cv := cam_vel q rr w (x_vel x).
Let dm := dm0 dt a cv cr d.
Let u := nu (Fea i).
Let k := / sqrt dt.
Let z := mv q (nu Att).
Let e' := vscale (sqrt dt) (Nmul Q (vx u) (vy u)).
Let wt t := vadd w (vscale k (vscale t (nu Att))).

Lemma dtk : dt * k = sqrt dt.
Proof. unfold k. pose proof (sqrt_lt_R0 dt Hdt). rewrite <- (sqrt_sqrt dt) at 1 by lra. field. lra. Qed.
Lemma n_w : dV wt (vscale k (nu Att)). Proof. apply dV_line_k. Qed.
Lemma n_w0 : wt 0 = w. Proof. unfold wt. now rewrite vscale_0, vscale_v0, vadd_0_r. Qed.
Lemma qn_rot : is_rot q. Proof. apply (qCM_rot n); auto. exact (cam_of_lt _ _ _ Hc). Qed.
Lemma n_cr : dV (fun t => cam_ror q (wt t)) (vscale k z).
Proof.
  eapply dV_eq; [apply dV_mv; [apply dM_const|apply n_w]|]. cbv beta. unfold z. rewrite mv_mscale, vscale_0, vadd_0_l. apply mv_scale.
Qed.
Lemma n_cv : dV (fun t => cam_vel q rr (wt t) (x_vel x)) (vscale (- k) (cross (mv q rr) z)).
Proof.
  eapply dV_eq; [apply dV_mv; [apply dM_const|apply dV_sub; [apply dV_cross; [apply n_w|apply dV_const]|apply dV_const]]|].
  cbv beta. unfold z. rewrite mv_mscale, vscale_0, vadd_0_l, (rot_cross q) by apply qn_rot. rewrite <- mv_scale. f_equal. generalize (nu Att) rr (wt 0) k. gv.
Qed.
Lemma n_e : dV (fun t => vscale (sqrt dt) (Nmul Q (t * vx u) (t * vy u))) e'.
Proof.
  eapply dV_ext; [|apply dV_scal, (dV_scale_line (Nmul Q (vx u) (vy u)))]. intros t. cbv beta. unfold Nmul.
  generalize (sqrt dt) (perp1 Q) (perp2 Q) (vx u) (vy u). revert t. gv.
Qed.
Let out t := predict n P im ip (along nu t) dt x.
Let Qo := mm (expm dm) Q.
Let D := vadd (vscale (sqrt dt) (vadd (vscale (/ d) (cross a (cross (mv q rr) z))) (vneg (vsub z (vscale (dot a z) a))))) e'.

Lemma nout_fea t : x_fea (out t) i = predict_fea n dt x (wt t) (along nu t (Fea i)) f.
Proof. unfold out, predict. cbn [x_fea]. destruct (i <? d_max n)%nat eqn:E; [reflexivity|apply Nat.ltb_ge in E; lia]. Qed.
Lemma nout_Q t : ft_Q (x_fea (out t) i) =
  mm (expm (vadd (dm0 dt a (cam_vel q rr (wt t) (x_vel x)) (cam_ror q (wt t)) d) (vscale (sqrt dt) (Nmul Q (t * vx u) (t * vy u))))) Q.
Proof. rewrite nout_fea. now rewrite (predict_fea_Q n dt x (wt t) _ f c Hc). Qed.
Lemma nout_Q0 : ft_Q (x_fea (out 0) i) = Qo.
Proof.
  rewrite nout_Q, n_w0. unfold Qo, dm, cr, cv. do 2 f_equal. unfold Nmul.
  generalize (dm0 dt a (cam_vel q rr w (x_vel x)) (cam_ror q w) d) (sqrt dt) (perp1 Q) (perp2 Q) (vx u) (vy u). gv.
Qed.
Lemma nout_nor : dV (fun t => nor (ft_Q (x_fea (out t) i))) (cross (mv (Lmat dm) D) (mv (expm dm) a)).
Proof.
  eapply dV_ext; [intros t; symmetry; rewrite nout_Q, nor_mm; reflexivity|].
  eapply dV_eq.
  - apply dV_bearing; [apply dV_dm; [apply dV_const|apply n_cv|apply n_cr|apply dR_const|apply n_e|exact (proj1 Sm)]|apply dV_const].
  - cbv beta. rewrite n_w0. fold cr cv a. rewrite mv_0, vadd_0_r.
    assert (E0 : vadd (dm0 dt a cv cr d) (vscale (sqrt dt) (Nmul Q (0 * vx u) (0 * vy u))) = dm).
    { fold dm. unfold Nmul. generalize dm (sqrt dt) (perp1 Q) (perp2 Q) (vx u) (vy u). gv. }
    rewrite E0. do 2 f_equal. unfold D. f_equal. rewrite <- dtk. unfold Rdiv. rewrite Ropp_0, Rmult_0_l.
    generalize (mv q rr) z (/ d) a cv cr k dt. gv.
Qed.

Let nL := mm (skew (mv (expm dm) a)) (Lmat dm).
Let pd := parameter_derivative (ft_d f).
Let XT := mneg (mscale (sqrt dt) (mm nL (mm (madd (mneg (proj a)) (mscale (1 / d) (mm (skew a) (skew (mv q rr))))) q))).
Let XF := mneg (mscale (sqrt dt) nL).
Let y := vadd (mv XT (nu Att)) (mv XF (Nmul Q (vx u) (vy u))).
Lemma ny_eq : y = cross (mv (Lmat dm) D) (mv (expm dm) a).
Proof.
  assert (DN : forall b, cross (mv (Lmat dm) b) (mv (expm dm) a) = vneg (mv nL b)).
  { intros b. unfold nL. rewrite mv_mm, skew_cross. generalize (mv (Lmat dm) b) (mv (expm dm) a). gv. }
  rewrite DN. unfold y, XT, XF, D, e'. unfold Rdiv.
  rewrite ?mv_mneg, ?mv_mscale, ?mv_mm, ?mv_madd, ?mv_mneg, ?mv_mscale, ?mv_mm, ?mv_proj, ?skew_cross. fold z.
  rewrite <- !mv_neg, <- !mv_scale. rewrite <- !mv_neg, <- !mv_add. f_equal.
  generalize (mv q rr) z (/ d) a (sqrt dt) (Nmul Q (vx u) (vy u)). gv.
Qed.
Let J := jac_noise n P im x dt.
Lemma nrow_fea : exists T, jmul n J nu (Fea i) = T /\
  vx T = dot (M1 Qo) y /\ vy T = dot (M2c Qo) y /\
  vz T = sqrt dt * pd * dot a (cross (mv q rr) z) + sqrt dt * vz u.
Proof.
  pose proof (cam_of_lt _ _ _ Hc) as Lc.
  assert (RS : jmul n J nu (Fea i) = fsum (J (Fea i)) nu [Att; Fea i]).
  { unfold jmul. apply row_support.
    - repeat constructor; cbn; intuition discriminate.
    - intros s Hs. cbn in Hs. decompose [or] Hs; subst; cbn; auto; contradiction.
    - intros s Hs Hn. unfold J, jac_noise. fold f. rewrite Hc. destruct s; try reflexivity; try (exfalso; apply Hn; cbn; now auto).
      all: match goal with |- context [(?p =? ?q)%nat] => destruct (Nat.eqb_spec p q) as [Ee|Ne]; [exfalso; apply Hn; cbn; rewrite Ee; tauto|] end.
      all: rewrite ?andb_false_r; reflexivity. }
  eexists. split; [exact RS|]. cbn [fsum fold_right].
  unfold J, jac_noise. fold f. rewrite Hc. fold w q rr. fold cr cv. fold Q. fold a d. fold dm. fold Qo. fold nL pd.
  fold XT XF. rewrite !Nat.eqb_refl.
  fold u.
  assert (AX : forall p q, vx (vadd p q) = vx p + vx q) by reflexivity.
  assert (AY : forall p q, vy (vadd p q) = vy p + vy q) by reflexivity.
  assert (AZ : forall p q, vz (vadd p q) = vz p + vz q) by reflexivity.
  split; [|split].
  - rewrite !AX, !rows_vx. unfold y. rewrite !dot_add_r. cbn [vx v0 fst]. unfold Nmul. rewrite mv_add, !mv_scale.
    generalize (mv XF (perp1 Q)) (mv XF (perp2 Q)) (M1 Qo) (M2c Qo) (mv XT (nu Att)) u (sqrt dt). clear. intros [[? ?] ?] [[? ?] ?] [[? ?] ?] [[? ?] ?] [[? ?] ?] [[? ?] ?] ?. geo. ring.
  - rewrite !AY, !rows_vy. unfold y. rewrite !dot_add_r. cbn [vy v0 fst snd]. unfold Nmul. rewrite mv_add, !mv_scale.
    generalize (mv XF (perp1 Q)) (mv XF (perp2 Q)) (M1 Qo) (M2c Qo) (mv XT (nu Att)) u (sqrt dt). clear. intros [[? ?] ?] [[? ?] ?] [[? ?] ?] [[? ?] ?] [[? ?] ?] [[? ?] ?] ?. geo. ring.
  - rewrite !AZ, !rows_vz. rewrite !dot_scale_l. rewrite !mv_dot, !mt_mt, !skew_cross. fold z. cbn [vz v0 snd].
    generalize (dot a (cross (mv q rr) z)) (mv XF (perp1 Q)) (mv XF (perp2 Q)) (M1 Qo) (M2c Qo) u (sqrt dt) pd. clear. intros ? [[? ?] ?] [[? ?] ?] [[? ?] ?] [[? ?] ?] [[? ?] ?] ? ?. geo. ring.
Qed.
Lemma nQo_rot : is_rot Qo. Proof. apply rot_mm; [apply expm_rot|exact rotQ]. Qed.
Lemma ny_perp : dot (nor Qo) y = 0.
Proof.
  rewrite ny_eq. unfold Qo. rewrite nor_mm. fold a.
  generalize (mv (Lmat dm) D) (mv (expm dm) a). clear. intros [[? ?] ?] [[? ?] ?]. geo. ring.
Qed.
Lemma fea_noise_bearing : dV (fun t => nor (ft_Q (x_fea (out t) i)))
   (Mmul (ft_Q (x_fea (out 0) i)) (vx (jmul n J nu (Fea i))) (vy (jmul n J nu (Fea i)))).
Proof.
  destruct nrow_fea as (T & -> & -> & -> & _). rewrite nout_Q0, (Mmul_MT Qo y nQo_rot ny_perp), ny_eq. apply nout_nor.
Qed.
Lemma fea_noise_param : dR (fun t => fd_p (ft_d (x_fea (out t) i))) (vz (jmul n J nu (Fea i))).
Proof.
  destruct nrow_fea as (T & -> & _ & _ & ->).
  eapply dR_ext with (f := fun t => (fd_p (ft_d f) - (dt * pd) * dot a (cam_vel q rr (wt t) (x_vel x))) + (t * vz u) * sqrt dt).
  { intros t. rewrite nout_fea, (predict_fea_p n dt x (wt t) (along nu t (Fea i)) f c) by exact Hc. reflexivity. }
  eapply dR_eq.
  - apply dR_plus; [apply dR_minus; [apply dR_const|apply dR_scal, dR_dot; [apply dV_const|apply n_cv]]|].
    apply dR_mult; [apply dR_mult; [apply dR_id|apply dR_const]|apply dR_const].
  - cbv beta. rewrite dot_scale_r, <- dtk.
    replace (dot v0 (cam_vel q rr (wt 0) (x_vel x))) with 0.
    2:{ generalize (cam_vel q rr (wt 0) (x_vel x)). clear. intros [[? ?] ?]. geo. ring. }
    ring.
Qed.
End NOISE.
End FEA.
