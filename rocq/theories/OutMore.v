From Coq Require Import Reals ZArith List Bool Arith Lia Lra.
From Verif Require Import Geo Lie DistModel DistSpec DistProofs FiltModel FiltSpec FiltProofs FiltJac FiltKin FiltMore UpdProofs OutModel OutSpec OutProofs.
Import ListNotations.
Local Open Scope R_scope.

(** ** rows of blocks *)
Lemma row_ext n J v w : (forall s, mv (J s) (v s) = mv (J s) (w s)) -> row_mul n J v = row_mul n J w.
Proof. intros H. unfold row_mul. induction (segs n) as [|s l IH]; [reflexivity|]. cbn [fold_right]. now rewrite H, IH. Qed.
Lemma row_neg n J v : row_mul n J (fun s => vneg (v s)) = vneg (row_mul n J v).
Proof.
  unfold row_mul. induction (segs n) as [|s l IH]; cbn [fold_right]; [symmetry; apply vneg_0|].
  rewrite IH, mv_neg. generalize (mv (J s) (v s)) (fold_right (fun s acc => vadd (mv (J s) (v s)) acc) v0 l). gv.
Qed.
Lemma flip_same frame n ign k x i tv : a_calib (x_aux x) = false \/ (forall c, tv (Vea c) = v0) ->
  row_mul n (transfer_jac frame ign k x i) (flip_vea tv) = row_mul n (transfer_jac frame ign k x i) tv.
Proof.
  intros H. apply row_ext. intros s. destruct s as [| | | | |j|j|j|j|j]; try reflexivity. cbn [flip_vea].
  destruct H as [H|H]; [|now rewrite H, vneg_0].
  unfold transfer_jac. rewrite H. destruct (_ =? _)%Z; now rewrite !mzero_mv.
Qed.
Lemma flip_pure frame n ign k x i tv : (forall s, (forall c, s <> Vea c) -> tv s = v0) ->
  row_mul n (transfer_jac frame ign k x i) (flip_vea tv) = vneg (row_mul n (transfer_jac frame ign k x i) tv).
Proof.
  intros H. rewrite <- row_neg. apply row_ext. intros s. destruct s as [| | | | |j|j|j|j|j]; cbn [flip_vea]; try reflexivity; rewrite H by discriminate; now rewrite vneg_0.
Qed.

(** ** parameter row for every parametrisation *)
Lemma trf_param_any frame n x i k tv dold : good_frame frame -> wf n x -> (i < d_max n)%nat -> (k < d_cam n)%nat -> usable n x i -> k <> fcam x i ->
  DrDP x k i <> v0 -> (fd_type dold = INVERSE -> / 1000000 < norm (DrDP x k i) < 1000000) ->
  exists g, transfer frame k x i dold = Some g /\
  dR (fun t => param (transfer frame k (boxplus x (along tv t)) i dold))
     (parameter_derivative (ft_d g) * vz (row_mul n (transfer_jac frame false k x i) (flip_vea tv))).
Proof.
  intros GF W Hi Hk U NE ND In.
  assert (RP : representable (fd_type dold) (norm (DrDP x k i))).
  { pose proof (norm_pos _ ND). destruct (fd_type dold); cbn; auto. specialize (In eq_refl). rewrite Rabs_pos_eq; lra. }
  destruct (transfer_some frame x i k NE x dold eq_refl eq_refl ND) as (g & Hg & _ & _ & S & T). exists g. split; [exact Hg|].
  destruct (trf_dist frame x i k NE ND dold RP) as (g' & Hg' & Hd). rewrite Hg in Hg'. injection Hg' as <-.
  assert (SD : smooth_dist (fd_type (ft_d g)) (fd_p (ft_d g))).
  { rewrite T. destruct (fd_type dold) eqn:E; cbn; auto. specialize (In eq_refl).
    unfold set_parameter in S. rewrite E in S. cbn in S. injection S as S. rewrite <- S. cbn [fd_p].
    rewrite mnz_out by (rewrite Rabs_pos_eq; unfold eps; lra). unfold Rdiv. rewrite Rmult_1_l, Rabs_inv, Rabs_pos_eq by lra.
    split; [apply Rinv_lt_contravar; [|lra]; apply Rmult_lt_0_compat; lra|].
    rewrite <- (Rinv_inv 1000000). apply Rinv_lt_contravar; [|lra]. apply Rmult_lt_0_compat; lra. }
  destruct (parameter_derivative_ok _ _ SD) as [[del LOC] DP].
  change (dist_of (fd_type (ft_d g)) (fd_p (ft_d g))) with (get_distance (ft_d g)) in *. rewrite Hd in *.
  replace {| fd_type := fd_type (ft_d g); fd_p := fd_p (ft_d g) |} with (ft_d g) in DP by (destruct (ft_d g); reflexivity).
  pose proof (trf_norm frame n x i k tv GF W Hi Hk U NE ND) as DN.
  assert (N0 : norm (DrDP (boxplus x (along tv 0)) k i) = norm (DrDP x k i)) by now rewrite D0.
  eapply dR_loc; [|apply (dR_comp (param_fun (fd_type (ft_d g))) (fun t => norm (DrDP (boxplus x (along tv t)) k i))); [exact DN|cbv beta; rewrite N0; exact DP]].
  destruct (near n x i k tv W Hi U ND) as (e & He & N).
  pose proof (dR_cont _ _ DN) as C. destruct (C del (cond_pos del)) as (e2 & He2 & C2).
  exists (Rmin e e2). split; [apply Rmin_glb_lt; auto|]. intros t Ht.
  specialize (N t (Rlt_le_trans _ _ _ Ht (Rmin_l _ _))).
  destruct (transfer_some frame x i k NE (boxplus x (along tv t)) dold eq_refl eq_refl N) as (g' & -> & _ & _ & S' & T'). cbn [param].
  assert (K : Rabs (norm (DrDP (boxplus x (along tv t)) k i) - norm (DrDP x k i)) < del).
  { destruct (Req_dec t 0) as [-> | Tn]; [rewrite N0, Rminus_diag_eq, Rabs_R0 by reflexivity; apply cond_pos|].
    specialize (C2 t). cbn in C2. unfold R_dist in C2. rewrite N0 in C2. apply C2. split; [split; [exact I|auto]|]. rewrite Rminus_0_r. apply (Rlt_le_trans _ _ _ Ht (Rmin_r _ _)). }
  specialize (LOC _ K). replace (norm (DrDP x k i) + (norm (DrDP (boxplus x (along tv t)) k i) - norm (DrDP x k i))) with (norm (DrDP (boxplus x (along tv t)) k i)) in LOC by ring.
  unfold set_parameter in S'. rewrite T in LOC. rewrite LOC in S'. cbn in S'. injection S' as S'. rewrite <- S'. cbn [fd_p]. now rewrite T.
Qed.

(** ** warps *)
Lemma MtXM_mv2 Qo X Q u : mv2 (MtXM Qo X Q) u = (dot (M1 Qo) (mv X (Mmul Q (fst u) (snd u))), dot (M2c Qo) (mv X (Mmul Q (fst u) (snd u)))).
Proof.
  unfold MtXM, Mmul. fold (M1 Q). unfold mv2, M2c. destruct u as [a b]. cbn [fst snd]. generalize (M1 Qo) (M1 Q) (perp1 Q) (perp1 Qo). intros. f_equal; rewrite mv_add, !mv_scale, dot_add_r, !dot_scale_r; ring.
Qed.
Lemma trf_warp frame n x i k dold u : good_frame frame -> wf n x -> (i < d_max n)%nat -> (k < d_cam n)%nat -> usable n x i -> k <> fcam x i ->
  DrDP x k i <> v0 -> ft_track (x_fea x i) = true ->
  exists g, transfer frame k x i dold = Some g /\
  dV (fun t => bearing (transfer frame k (boxplus x (along (bump i (mv2 (ft_warp (x_fea x i)) u)) t)) i dold))
     (Mmul (ft_Q g) (fst (mv2 (ft_warp g) u)) (snd (mv2 (ft_warp g) u))).
Proof.
  intros GF W Hi Hk U NE ND T. set (o := mv2 (ft_warp (x_fea x i)) u).
  destruct (trf_bearing frame n x i k (bump i o) GF W Hi Hk U NE ND dold false) as (g & Hg & D). exists g. split; [exact Hg|].
  eapply dV_eq; [exact D|]. clear D.
  destruct (transfer_some frame x i k NE x dold eq_refl eq_refl ND) as (g' & Hg' & _ & HQ & _). rewrite Hg in Hg'. injection Hg' as <-.
  assert (HW : ft_warp g = mm2 (MtXM (frame (DrDP x k i)) (mscale (get_distance (ft_d (x_fea x i)) / norm (DrDP x k i)) (qDC x k (fcam x i))) (ft_Q (x_fea x i))) (ft_warp (x_fea x i))).
  { unfold transfer in Hg. rewrite (cam_ne x i k NE), T in Hg. destruct (set_parameter _ _); [|discriminate]. injection Hg as <-. reflexivity. }
  rewrite HQ, HW, mv2_mm. fold o. rewrite MtXM_mv2. cbn [fst snd].
  destruct (row_trf frame n x i k (bump i o) W Hi Hk U NE false) as (-> & -> & _).
  assert (Z : forall c, vq x (bump i o) c = v0 /\ vr x (bump i o) c = v0) by (intros c; unfold vq, vr; cbn; destruct (a_calib (x_aux x)); auto).
  destruct (Z k) as [-> ->]. destruct (Z (fcam x i)) as [-> ->]. cbn [bump]. rewrite Nat.eqb_refl. cbn [vx vy vz fst snd].
  rewrite Rmult_0_r, vscale_0, vadd_0_l, vsub_0_r, mv_0, vadd_0_r.
  replace (cross v0 (DrDP x k i)) with v0 by (generalize (DrDP x k i); unfold v0; gv).
  replace (cross (ray (x_fea x i)) v0) with v0 by (generalize (ray (x_fea x i)); unfold v0; gv).
  rewrite vadd_0_l, vadd_0_r, mv_scale, vscale_scale, mv_mscale. unfold Rdiv. rewrite (Rmult_comm (/ norm _)). reflexivity.
Qed.

(** transfer of a feature to its own camera: the value is unchanged, the tracked warp is expressed in a
    different basis of the tangent plane *)
Lemma own_D n x i k : wf n x -> usable n x i -> ft_cam (x_fea x i) = Z.of_nat k ->
  qDC x k (fcam x i) = m1 /\ DrDP x k i = ray (x_fea x i).
Proof.
  intros W U E. pose proof (usable_fcam n x i U) as [L _]. assert (Ek : fcam x i = k) by (unfold fcam; rewrite E; apply Nat2Z.id). rewrite Ek in *.
  assert (Rk : is_rot (qCM x k)) by now apply (qCM_rot n).
  assert (E1 : qDC x k k = m1) by exact (proj1 Rk). split; [exact E1|]. unfold DrDP. rewrite Ek, E1, mv_m1.
  unfold CrCD. replace (vsub (MrMC x k) (MrMC x k)) with v0 by (generalize (MrMC x k); unfold v0; gv). now rewrite mv_0, vsub_0_r.
Qed.
Lemma own_transfer frame k x i dold : ft_cam (x_fea x i) = Z.of_nat k ->
  exists g, transfer frame k x i dold = Some g /\ ft_cam g = ft_cam (x_fea x i) /\ ft_Q g = ft_Q (x_fea x i) /\ ft_d g = ft_d (x_fea x i) /\
    ft_track g = ft_track (x_fea x i) /\ (ft_track (x_fea x i) = false -> ft_warp g = ft_warp (x_fea x i)).
Proof.
  intros E. unfold transfer. rewrite E, Z.eqb_refl. eexists. split; [reflexivity|]. repeat split. cbn [ft_warp]. intros ->. reflexivity.
Qed.
Lemma dist_norm f : is_rot (ft_Q f) -> 0 < get_distance (ft_d f) -> norm (ray f) = get_distance (ft_d f) /\ unit (ray f) = nor (ft_Q f).
Proof.
  intros RQ P. assert (N : norm (nor (ft_Q f)) = 1) by (apply norm_unit, nor_unit, RQ).
  assert (E : norm (ray f) = get_distance (ft_d f)) by (unfold ray; rewrite norm_scale, N, Rabs_pos_eq; lra).
  split; [exact E|]. unfold unit. rewrite E. unfold ray. rewrite vscale_scale, Rinv_l, vscale_1 by lra. reflexivity.
Qed.
(** what the code stores is right in the basis of [frame], not in the basis of the stored bearing *)
Lemma own_warp frame n k x i dold u : good_frame frame -> wf n x -> (i < d_max n)%nat -> usable n x i -> ft_cam (x_fea x i) = Z.of_nat k ->
  ft_track (x_fea x i) = true -> 0 < get_distance (ft_d (x_fea x i)) ->
  exists g, transfer frame k x i dold = Some g /\ ft_Q g = ft_Q (x_fea x i) /\
   Mmul (frame (ray (x_fea x i))) (fst (mv2 (ft_warp g) u)) (snd (mv2 (ft_warp g) u)) =
   Mmul (ft_Q (x_fea x i)) (fst (mv2 (ft_warp (x_fea x i)) u)) (snd (mv2 (ft_warp (x_fea x i)) u)).
Proof.
  intros GF W Hi U E T P. destruct (own_D n x i k W U E) as [Eq ED]. pose proof (wf_fea n x W i Hi) as RQ.
  destruct (dist_norm _ RQ P) as [Nr Ur].
  unfold transfer. rewrite E, Z.eqb_refl, T, Eq, ED, Nr. eexists. split; [reflexivity|]. split; [reflexivity|]. cbn [ft_warp].
  rewrite mv2_mm. set (o := mv2 (ft_warp (x_fea x i)) u). rewrite MtXM_mv2. cbn [fst snd].
  replace (get_distance (ft_d (x_fea x i)) / get_distance (ft_d (x_fea x i))) with 1 by (field; lra).
  replace (mv (mscale 1 m1) (Mmul (ft_Q (x_fea x i)) (fst o) (snd o))) with (Mmul (ft_Q (x_fea x i)) (fst o) (snd o)) by (generalize (Mmul (ft_Q (x_fea x i)) (fst o) (snd o)); gv).
  assert (NZ : ray (x_fea x i) <> v0). { intros H. rewrite H in Nr. unfold norm, v0, dot in Nr. cbn in Nr. rewrite !Rmult_0_l, !Rplus_0_l, sqrt_0 in Nr. lra. }
  destruct (GF _ NZ) as [RF NF]. apply Mmul_MT; [exact RF|]. rewrite NF, Ur. now apply Mmul_nor.
Qed.
Lemma Mmul_inj Q a b a' b' : is_rot Q -> Mmul Q a b = Mmul Q a' b' -> a = a' /\ b = b'.
Proof.
  intros RQ H. assert (O : forall a b, dot (M1 Q) (Mmul Q a b) = a /\ dot (M2c Q) (Mmul Q a b) = b).
  { intros p r. unfold Mmul, M1, M2c, perp1, perp2. rewrite <- mv_neg, <- !mv_scale, <- mv_add, !rot_dot by exact RQ. unfold dot, vneg, vadd, vscale. cbn. split; ring. }
  destruct (O a b) as [O1 O2], (O a' b') as [O3 O4]. rewrite H in *. split; congruence.
Qed.
(** with the bearing in the library's own basis the warp is kept *)
Lemma own_warp_same frame n k x i dold : good_frame frame -> wf n x -> (i < d_max n)%nat -> usable n x i -> ft_cam (x_fea x i) = Z.of_nat k ->
  ft_track (x_fea x i) = true -> 0 < get_distance (ft_d (x_fea x i)) -> frame (ray (x_fea x i)) = ft_Q (x_fea x i) ->
  transfer frame k x i dold = Some (x_fea x i).
Proof.
  intros GF W Hi U E T P F. pose proof (wf_fea n x W i Hi) as RQ.
  assert (H : forall u, exists g, transfer frame k x i dold = Some g /\ mv2 (ft_warp g) u = mv2 (ft_warp (x_fea x i)) u).
  { intros u. destruct (own_warp frame n k x i dold u GF W Hi U E T P) as (g & Hg & _ & K). exists g. split; [exact Hg|]. rewrite F in K.
    destruct (Mmul_inj _ _ _ _ _ RQ K). destruct (mv2 (ft_warp g) u), (mv2 (ft_warp (x_fea x i)) u). cbn in *. congruence. }
  destruct (H (1, 0)) as (g & Hg & H1). destruct (H (0, 1)) as (g' & Hg' & H2). rewrite Hg in Hg'. injection Hg' as <-.
  rewrite Hg. f_equal. unfold transfer in Hg. rewrite E, Z.eqb_refl in Hg. injection Hg as <-. cbn [ft_warp] in *.
  destruct (x_fea x i) as [fc fQ fd ft fw]. cbn [ft_cam ft_Q ft_d ft_track ft_warp] in *. subst fc.
  f_equal.
  match type of H1 with mv2 ?w _ = _ => revert H1 H2; generalize w end. clear. intros [[a b] [c d]]. destruct fw as [[a' b'] [c' d']]. unfold mv2. cbn.
  rewrite !Rmult_1_r, !Rmult_0_r, !Rplus_0_r, !Rplus_0_l. intros [= -> ->] [= -> ->]. reflexivity.
Qed.
