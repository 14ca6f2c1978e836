From Coq Require Import Reals ZArith List Bool Arith Lia Lra Nsatz.
From Verif Require Import Geo Lie DistModel DistSpec DistProofs FiltModel FiltSpec FiltProofs FiltJac FiltFull FiltKin.
Import ListNotations.
Local Open Scope R_scope.

Section Q.
Variables (n : dims) (P : params).

Lemma qCM_is_rot x c : wf n x -> (c < d_cam n)%nat -> is_rot (qCM x c).
Proof. intros H L. unfold qCM. destruct (a_calib (x_aux x)); [apply (wf_vea n x H)|apply (wf_aux n x H)]; auto. Qed.
Lemma pf_rot dt x w u f : is_rot (ft_Q f) -> is_rot (ft_Q (predict_fea n dt x w u f)).
Proof. intros H. unfold predict_fea. destruct (cam_of n f); [|exact H]. cbn [ft_Q]. apply rot_mm; auto using expm_rot. Qed.
Lemma wf_predict im ip nz dt x : wf n x -> wf n (predict n P im ip nz dt x).
Proof.
  intros H. constructor; unfold predict; cbn [x_att x_vea x_aux x_poa x_fea a_qCM].
  - apply rot_mm; [apply (wf_att n x H)|apply expm_rot].
  - intros c L. destruct (a_calib (x_aux x)); [|now apply (wf_vea n x H)]. destruct (Nat.ltb_spec c (d_cam n)); [|lia]. apply rot_mm; [apply expm_rot|now apply qCM_is_rot].
  - intros c L. destruct (a_calib (x_aux x)); [now apply (wf_aux n x H)|]. destruct (Nat.ltb_spec c (d_cam n)); [|lia]. apply rot_mm; [apply expm_rot|now apply qCM_is_rot].
  - intros k L. destruct (Nat.ltb_spec k (d_pose n)); [|lia]. apply rot_mm; [apply expm_rot|now apply (wf_poa n x H)].
  - intros i L. destruct (Nat.ltb_spec i (d_max n)); [|lia]. apply pf_rot, (wf_fea n x H i L).
Qed.
(** any run of noisy predictions *)
Lemma wf_run l x : wf n x -> wf n (fold_left (fun y s => let '(im, ip, nz, dt) := s in predict n P im ip nz dt y) l x).
Proof. revert x. induction l as [|[[[im ip] nz] dt] l IH]; intros x H; cbn [fold_left]; [exact H|]. apply IH, wf_predict, H. Qed.

(** the camera and the parametrisation of a feature never change *)
Lemma pf_cam dt x w u f : ft_cam (predict_fea n dt x w u f) = ft_cam f.
Proof. unfold predict_fea. destruct (cam_of n f); reflexivity. Qed.
Lemma pf_type dt x w u f : fd_type (ft_d (predict_fea n dt x w u f)) = fd_type (ft_d f).
Proof. unfold predict_fea. destruct (cam_of n f); reflexivity. Qed.

(** ** standing still *)
Lemma perp_orth Q : is_rot Q -> dot (M1 Q) (M1 Q) = 1 /\ dot (M1 Q) (M2c Q) = 0 /\ dot (M2c Q) (M1 Q) = 0 /\ dot (M2c Q) (M2c Q) = 1.
Proof.
  intros H. unfold M1, M2c, perp1, perp2. rewrite <- !mv_neg, !rot_dot by auto. unfold dot, vneg. cbn. repeat split; ring.
Qed.
Lemma mm2_1 (w : M2) : mm2 ((1, 0), (0, 1)) w = w.
Proof. destruct w as [[? ?] [? ?]]. unfold mm2. repeat f_equal; ring. Qed.
Lemma pf_still dt x f : is_rot (ft_Q f) -> x_vel x = v0 -> predict_fea n dt x v0 v0 f = f.
Proof.
  intros H V. unfold predict_fea. destruct (cam_of n f) as [c|]; [|reflexivity]. unfold cam_ror, cam_vel. rewrite V, mv_0.
  assert (E : mv (qCM x c) (vsub (cross v0 (MrMC x c)) v0) = v0).
  { replace (vsub (cross v0 (MrMC x c)) v0) with v0; [apply mv_0|]. generalize (MrMC x c). unfold v0. gv. }
  rewrite E. set (a := nor (ft_Q f)). set (d := get_distance (ft_d f)).
  assert (D0 : vadd (dm0 dt a v0 v0 d) (vscale (sqrt dt) (Nmul (ft_Q f) (vx v0) (vy v0))) = v0).
  { unfold dm0, Nmul. rewrite !mv_0, vscale_v0, vadd_0_r, vscale_v0. unfold vx, vy, v0 at 1 2. cbn [fst snd]. rewrite !vscale_0, vadd_0_r, vscale_v0. apply vadd_0_r. }
  rewrite D0, expm_0, mm_1_l.
  assert (B : bear_mid dt a v0 v0 d v0 = m1).
  { unfold bear_mid. rewrite expm_0. generalize (Lmat v0) (mv m1 a) a (-1 / d). clear. intros L b a e.
    replace (madd (mscale e (skew v0)) (mneg (madd (mscale (dot a v0) m1) (outer a v0)))) with mzero by (unfold mzero, v0; veq).
    replace (mm L mzero) with mzero by (unfold mzero, v0; veq). unfold mzero, v0. veq. }
  rewrite B. assert (D : dot a v0 = 0) by (unfold dot, v0; cbn; ring). rewrite D.
  assert (X : MtXM (ft_Q f) m1 (ft_Q f) = ((1, 0), (0, 1))).
  { unfold MtXM. rewrite !mv_m1. destruct (perp_orth _ H) as (-> & -> & -> & ->). reflexivity. }
  rewrite X, mm2_1. destruct f as [cm Q [ty p] tr wa]. cbn [ft_cam ft_Q ft_d ft_track ft_warp fd_type fd_p vz v0 snd]. f_equal; [f_equal; ring|destruct tr; reflexivity].
Qed.

Local Notation still := (still P).
Local Notation same_motion := (same_motion n).
Lemma still_step im ip dt x : wf n x -> still im x -> same_motion (predict n P im ip no_noise dt x) x.
Proof.
  intros H [V G A]. assert (B : body_rate im x = v0) by (unfold body_rate; rewrite G; apply vsub_diag).
  destruct (pred_const n P im ip dt x) as (C1 & C2 & C3 & C4 & _). unfold FiltSpec.same_motion. rewrite pred_pos, pred_vel, pred_att, B, vscale_v0, expm_0, mm_1_r.
  unfold world_velocity. rewrite V, mv_0.
  assert (S0 : vadd (specific_force im x) (mv (mt (x_att x)) (p_g P)) = v0).
  { rewrite <- (rot_inv_l (x_att x) (specific_force im x)) by apply (wf_att n x H). rewrite A, <- mv_add. replace (vadd (vneg (p_g P)) (p_g P)) with v0; [apply mv_0|generalize (p_g P); unfold v0; gv]. }
  rewrite S0. split; [|split; [|repeat (split; [assumption || reflexivity|])]].
  - generalize (x_pos x). unfold v0. gv.
  - unfold v0. veq.
  - split; [|auto]. intros i L. unfold predict. cbn [x_fea]. destruct (Nat.ltb_spec i (d_max n)); [|lia].
    unfold no_noise. rewrite vscale_v0, vadd_0_r. fold (body_rate im x). rewrite B. apply pf_still; [apply (wf_fea n x H i L)|exact V].
Qed.
Lemma same_still im y x : same_motion y x -> still im x -> still im y.
Proof.
  intros (Sp & Sv & Sa & Sg & St & _) [V G A]. constructor; [congruence|congruence|]. unfold specific_force. now rewrite Sa, St.
Qed.
Lemma same_trans x y z : same_motion x y -> same_motion y z -> same_motion x z.
Proof.
  intros (A1 & A2 & A3 & A4 & A5 & A6 & A7 & A8) (B1 & B2 & B3 & B4 & B5 & B6 & B7 & B8).
  unfold FiltSpec.same_motion. repeat (split; [congruence|]). split; [|split]; intros; [rewrite A6, B6|rewrite A7, B7|rewrite A8, B8]; auto.
Qed.
Lemma still_run im dts x : wf n x -> still im x ->
  same_motion (fold_left (fun y dt => predict n P im true no_noise dt y) dts x) x.
Proof.
  revert x. induction dts as [|dt l IH]; intros x H S1; cbn [fold_left].
  - unfold FiltSpec.same_motion. repeat split; auto.
  - pose proof (still_step im true dt x H S1) as E. eapply same_trans; [|exact E]. apply IH; [now apply wf_predict|eapply same_still; eauto].
Qed.

(** ** the motion timer *)
Lemma timer_quiet im (ip : bool) dt x : moving P (if ip then predict n P im ip no_noise dt x else x) im = false ->
  a_timerI (x_aux (predict n P im ip no_noise dt x)) = a_timerI (x_aux x) + dt.
Proof. intros H. destruct ip; unfold predict in *; cbn [x_aux a_timerI] in *; unfold moving, imu_acc_err in *; cbn [x_gyb x_acb x_att] in *; now rewrite H. Qed.
Lemma timer_moving im (ip : bool) dt x : moving P (if ip then predict n P im ip no_noise dt x else x) im = true ->
  a_timerI (x_aux (predict n P im ip no_noise dt x)) = 0.
Proof. intros H. destruct ip; unfold predict in *; cbn [x_aux a_timerI] in *; unfold moving, imu_acc_err in *; cbn [x_gyb x_acb x_att] in *; now rewrite H. Qed.

(** whether prediction happens in place matters for that timer alone *)
Lemma inplace_same im nz dt x : let y := predict n P im true nz dt x in let z := predict n P im false nz dt x in
  x_pos y = x_pos z /\ x_vel y = x_vel z /\ x_acb y = x_acb z /\ x_gyb y = x_gyb z /\ x_att y = x_att z /\
  x_vep y = x_vep z /\ x_vea y = x_vea z /\ x_fea y = x_fea z /\ x_pop y = x_pop z /\ x_poa y = x_poa z.
Proof. repeat split. Qed.

(** ** speed under pure rotation *)
Lemma speed_step im ip dt x : is_rot (x_att x) -> mv (x_att x) (specific_force im x) = vneg (p_g P) ->
  dot (x_vel (predict n P im ip no_noise dt x)) (x_vel (predict n P im ip no_noise dt x)) =
  dot (x_vel x) (x_vel x) + dt * dt * dot (cross (body_rate im x) (x_vel x)) (cross (body_rate im x) (x_vel x)).
Proof.
  intros H A. rewrite pred_vel.
  assert (S0 : vadd (specific_force im x) (mv (mt (x_att x)) (p_g P)) = v0).
  { rewrite <- (rot_inv_l (x_att x) (specific_force im x)) by auto. rewrite A, <- mv_add. replace (vadd (vneg (p_g P)) (p_g P)) with v0; [apply mv_0|generalize (p_g P); unfold v0; gv]. }
  rewrite S0, vadd_0_r. generalize (body_rate im x) (x_vel x). clear. intros w u. destruct w as [[? ?] ?], u as [[? ?] ?]. geo. ring.
Qed.

(** ** warp *)
Lemma mv2_mm A B u : mv2 (mm2 A B) u = mv2 A (mv2 B u).
Proof. destruct A as [[? ?] [? ?]], B as [[? ?] [? ?]], u. unfold mv2, mm2. cbn [fst snd]. f_equal; ring. Qed.
Lemma row3_vx a b c d e f g x y : vx (mv ((a, b, c), (d, e, f), g) (x, y, 0)) = a * x + b * y.
Proof. destruct g as [[? ?] ?]. unfold mv, vx, dot. cbn. ring. Qed.
Lemma row3_vy a b c d e f g x y : vy (mv ((a, b, c), (d, e, f), g) (x, y, 0)) = d * x + e * y.
Proof. destruct g as [[? ?] ?]. unfold mv, vy, dot. cbn. ring. Qed.
Lemma row_bump (row : seg -> M3) i u : (i < d_max n)%nat -> row_mul n row (bump i u) = mv (row (Fea i)) (fst u, snd u, 0).
Proof.
  intros L. set (row' := fun s => if seg_eq s (Fea i) then row s else mzero).
  assert (E : row_mul n row (bump i u) = row_mul n row' (bump i u)).
  { unfold row_mul. induction (segs n) as [|s l IH]; [reflexivity|]. cbn [fold_right]. rewrite IH. f_equal. unfold row'. destruct (seg_eq s (Fea i)) as [|Ne]; [reflexivity|].
    assert (Z : bump i u s = v0) by (destruct s; try reflexivity; cbn [bump]; destruct (Nat.eqb_spec i0 i); [subst; congruence|reflexivity]). rewrite Z, !mv_0. reflexivity. }
  rewrite E, (row_support n row' (bump i u) [Fea i]).
  - unfold fsum. cbn [fold_right]. unfold row'. destruct (seg_eq (Fea i) (Fea i)); [|congruence]. unfold bump. rewrite Nat.eqb_refl. apply vadd_0_r.
  - constructor; [cbn; tauto|constructor].
  - intros s [<-|[]]. exact L.
  - intros s _ Ns. unfold row'. destruct (seg_eq s (Fea i)) as [->|]; [exfalso; apply Ns; now left|reflexivity].
Qed.

(** One prediction step transports a tracked warp by the derivative of the predicted bearing: moving
    the old bearing along the old warp's image of u moves the new bearing along the new warp's image of u. *)
Lemma warp_transport im ip dt x i u : wf n x -> (i < d_max n)%nat -> usable n x i -> ft_track (x_fea x i) = true ->
  let f' := x_fea (predict n P im ip no_noise dt x) i in
  let old := mv2 (ft_warp (x_fea x i)) u in let new := mv2 (ft_warp f') u in
  dV (fun t => nor (ft_Q (x_fea (predict n P im ip no_noise dt (boxplus x (along (bump i old) t))) i)))
     (Mmul (ft_Q f') (fst new) (snd new)).
Proof.
  intros W L U T f' old new.
  destruct (jac_state_ok n P im ip x dt W (bump i old)) as (_ & _ & _ & _ & _ & _ & _ & F & _).
  destruct (F i L U) as [D _]. eapply dV_eq; [exact D|]. clear D F.
  assert (FX : forall x', x_fea (predict n P im ip no_noise dt x') i = predict_fea n dt x' (vsub (i_gyr im) (x_gyb x')) v0 (x_fea x' i)).
  { intros x'. unfold predict. cbn [x_fea]. destruct (Nat.ltb_spec i (d_max n)); [|lia]. unfold no_noise. now rewrite vscale_v0, vadd_0_r. }
  assert (F0 : x_fea (boxplus x (along (bump i old) 0)) i = x_fea x i).
  { unfold boxplus, box_fea, along. cbn [x_fea]. rewrite vscale_0. unfold Nmul, vx, vy, vz, v0. cbn [fst snd]. rewrite !vscale_0, vadd_0_r, expm_0, mm_1_l, Rplus_0_r. destruct (x_fea x i) as [? ? [? ?] ? ?]. reflexivity. }
  destruct (usable_cam _ _ _ U) as [c Hc].
  assert (E0 : x_fea (predict n P im ip no_noise dt (boxplus x (along (bump i old) 0))) i = f').
  { unfold f'. rewrite !FX, F0. cbn [boxplus x_gyb along]. unfold along. cbn [bump]. rewrite vscale_v0, vadd_0_r. unfold predict_fea. rewrite Hc.
    fold (along (bump i old) 0). rewrite qCM_box0, MrMC_box0. cbn [boxplus x_vel]. unfold along. now rewrite vscale_0, vadd_0_r. }
  rewrite E0. unfold jmul. rewrite row_bump by exact L. cbn [jac_state]. rewrite Hc, Nat.eqb_refl.
  assert (Wf' : ft_warp f' = mm2 (MtXM (ft_Q f') (bear_mid dt (nor (ft_Q (x_fea x i))) (cam_vel (qCM x c) (MrMC x c) (vsub (i_gyr im) (x_gyb x)) (x_vel x)) (cam_ror (qCM x c) (vsub (i_gyr im) (x_gyb x))) (get_distance (ft_d (x_fea x i)))
     (dm0 dt (nor (ft_Q (x_fea x i))) (cam_vel (qCM x c) (MrMC x c) (vsub (i_gyr im) (x_gyb x)) (x_vel x)) (cam_ror (qCM x c) (vsub (i_gyr im) (x_gyb x))) (get_distance (ft_d (x_fea x i))))) (ft_Q (x_fea x i))) (ft_warp (x_fea x i))).
  { unfold f'. rewrite FX. unfold predict_fea. rewrite Hc, T. cbn [ft_warp ft_Q]. unfold Nmul, vx, vy, v0. cbn [fst snd]. now rewrite !vscale_0, vadd_0_r, vscale_v0, !vadd_0_r. }
  assert (Qf' : ft_Q f' = mm (expm (dm0 dt (nor (ft_Q (x_fea x i))) (cam_vel (qCM x c) (MrMC x c) (vsub (i_gyr im) (x_gyb x)) (x_vel x)) (cam_ror (qCM x c) (vsub (i_gyr im) (x_gyb x))) (get_distance (ft_d (x_fea x i))))) (ft_Q (x_fea x i))).
  { unfold f'. rewrite FX. unfold predict_fea. rewrite Hc. cbn [ft_Q]. unfold Nmul, vx, vy, v0. cbn [fst snd]. now rewrite !vscale_0, vadd_0_r, vscale_v0, !vadd_0_r. }
  unfold new. rewrite Wf', mv2_mm. fold old. rewrite <- Qf'.
  match goal with |- context [fea_block ?a ?b (MtXM ?a ?X ?b) ?y ?r ?e] => set (X0 := X); set (y0 := y); set (r0 := r); set (e0 := e) end.
  clearbody X0 y0 r0 e0. destruct old as [o1 o2]. cbn [fst snd]. unfold MtXM, fea_block, mv2. cbn [fst snd]. rewrite row3_vx, row3_vy. reflexivity.
Qed.
End Q.
