From Coq Require Import List ZArith Reals Bool Lia Lra Psatz.
From Verif Require Import Geo DistModel SceneModel SceneSpec SceneProofs SceneGeo SceneGeo2 ViewModel ViewSpec.
Import ListNotations.
Local Open Scope R_scope.

Lemma transforms_invert v q : is_rot q ->
  af_mul (init_transform v q) (init_inverse_transform v q) = af_id /\
  af_mul (init_inverse_transform v q) (init_transform v q) = af_id.
Proof.
  intros (A & B & _). unfold af_mul, init_transform, init_inverse_transform, af_id. cbn [af_rot af_pos]. split.
  - rewrite A. f_equal. generalize (mv q v). intro. veq.
  - rewrite B. f_equal. rewrite mv_neg, <- mv_mm, B, mv_m1. veq.
Qed.

Lemma af_mul_apply a b p : af_apply (af_mul a b) p = af_apply a (af_apply b p).
Proof. unfold af_apply, af_mul. cbn [af_rot af_pos]. rewrite mv_mm, mv_add. now rewrite vadd_assoc. Qed.
Lemma init_transform_apply v q p : af_apply (init_transform v q) p = mv q (vsub p v).
Proof. unfold af_apply, init_transform. cbn [af_rot af_pos]. rewrite mv_sub. generalize (mv q p) (mv q v). intros. veq. Qed.
Lemma init_inverse_apply v q p : af_apply (init_inverse_transform v q) p = vadd (mv (mt q) p) v.
Proof. reflexivity. Qed.
Lemma render_eq k WrWC qCW WrWB qBW p :
  render k WrWC qCW WrWB qBW p = clip k (in_camera WrWC qCW WrWB qBW p).
Proof. unfold render. rewrite af_mul_apply, init_inverse_apply, init_transform_apply. reflexivity. Qed.

Lemma usable_tan k : usable k -> 0 < tan (p_fov k / 2).
Proof. intros ((A & B) & _). apply tan_gt_0; lra. Qed.
Lemma scale_le a b c : 0 < a -> (- c <= 1 / a * b <= c <-> - (a * c) <= b <= a * c).
Proof.
  intro H. replace (1 / a * b) with (b / a) by (field; lra). split; intros [P Q]; split.
  - apply (Rmult_le_compat_r a) in P; [|lra]. unfold Rdiv in P. rewrite (Rmult_assoc b), Rinv_l in P by lra. lra.
  - apply (Rmult_le_compat_r a) in Q; [|lra]. unfold Rdiv in Q. rewrite (Rmult_assoc b), Rinv_l in Q by lra. lra.
  - apply (Rmult_le_reg_r a); [lra|]. unfold Rdiv. rewrite (Rmult_assoc b), Rinv_l by lra. lra.
  - apply (Rmult_le_reg_r a); [lra|]. unfold Rdiv. rewrite (Rmult_assoc b), Rinv_l by lra. lra.
Qed.
Lemma depth_low n f z : f < n < 0 -> ((- n - f) / (f - n) * z + 2 * f * n / (f - n)) - z = 2 * (f / (f - n)) * (n - z).
Proof. intro. field. lra. Qed.
Lemma depth_high n f z : f < n < 0 -> - z - ((- n - f) / (f - n) * z + 2 * f * n / (f - n)) = 2 * (n / (f - n)) * (z - f).
Proof. intro. field. lra. Qed.
Lemma neg_quot a b : a < 0 -> b < 0 -> 0 < a / b.
Proof. intros. replace (a / b) with (- a / - b) by (field; lra). apply Rdiv_lt_0_compat; lra. Qed.

Lemma view_volume k p : usable k ->
  kept (clip k p) <->
  p_far k <= vz p <= p_near k /\
  Rabs (vx p) <= tan (p_fov k / 2) * (p_width k / p_height k) * - vz p /\
  Rabs (vy p) <= tan (p_fov k / 2) * - vz p.
Proof.
  intro U. pose proof (usable_tan k U) as T. destruct U as (_ & W & H & Z).
  assert (AR : 0 < p_width k / p_height k) by (apply Rdiv_lt_0_compat; assumption).
  unfold kept, clip. cbv zeta. set (th := tan (p_fov k / 2)) in *. set (ar := p_width k / p_height k) in *.
  pose proof (Rmult_lt_0_compat _ _ T AR) as TA.
  rewrite (scale_le _ (vx p) (- vz p) TA), (scale_le _ (vy p) (- vz p) T).
  pose proof (depth_low (p_near k) (p_far k) (vz p) Z) as DL.
  pose proof (depth_high (p_near k) (p_far k) (vz p) Z) as DH.
  pose proof (neg_quot (p_far k) (p_far k - p_near k) ltac:(lra) ltac:(lra)) as QF.
  pose proof (neg_quot (p_near k) (p_far k - p_near k) ltac:(lra) ltac:(lra)) as QN.
  set (D := (- p_near k - p_far k) / (p_far k - p_near k) * vz p + 2 * p_far k * p_near k / (p_far k - p_near k)) in *.
  set (a := p_far k / (p_far k - p_near k)) in *. set (b := p_near k / (p_far k - p_near k)) in *.
  split.
  - intros (Hw & Hx & Hy & Hz). split; [|split; apply Rabs_le; lra].
    split.
    + destruct (Rle_dec (p_far k) (vz p)) as [C|C]; [exact C|].
      assert (b * (vz p - p_far k) < 0) by (apply Ropp_lt_cancel; rewrite Ropp_0, Ropp_mult_distr_r; apply Rmult_lt_0_compat; lra). lra.
    + destruct (Rle_dec (vz p) (p_near k)) as [C|C]; [exact C|].
      assert (a * (p_near k - vz p) < 0) by (apply Ropp_lt_cancel; rewrite Ropp_0, Ropp_mult_distr_r; apply Rmult_lt_0_compat; lra). lra.
  - intros (Hz & Hx & Hy).
    assert (Hx' : - (th * ar * - vz p) <= vx p <= th * ar * - vz p) by (unfold Rabs in Hx; destruct (Rcase_abs (vx p)); lra).
    assert (Hy' : - (th * - vz p) <= vy p <= th * - vz p) by (unfold Rabs in Hy; destruct (Rcase_abs (vy p)); lra).
    split; [lra|]. split; [exact Hx'|]. split; [exact Hy'|].
    pose proof (Rmult_le_pos a (p_near k - vz p) ltac:(lra) ltac:(lra)).
    pose proof (Rmult_le_pos b (vz p - p_far k) ltac:(lra) ltac:(lra)). lra.
Qed.

Lemma ndc_depth k p : usable k -> vz p < 0 ->
  vz (ndc (clip k p)) = (p_near k + p_far k) / (p_far k - p_near k) - 2 * p_far k * p_near k / (p_far k - p_near k) * / vz p.
Proof.
  intros (_ & _ & _ & Z) H. unfold ndc, clip, vz at 1. cbn [fst snd]. field. lra.
Qed.
Lemma depth_order k p q : usable k -> vz p < 0 -> vz q < 0 ->
  (vz (ndc (clip k p)) < vz (ndc (clip k q)) <-> - vz p < - vz q).
Proof.
  intros U Hp Hq. rewrite !ndc_depth by assumption. destruct U as (_ & _ & _ & Z).
  assert (C : 2 * p_far k * p_near k / (p_far k - p_near k) < 0).
  { replace (2 * p_far k * p_near k / (p_far k - p_near k)) with (- (2 * (p_far k * p_near k) / (p_near k - p_far k))) by (field; lra).
    assert (0 < 2 * (p_far k * p_near k) / (p_near k - p_far k)) by (apply Rdiv_lt_0_compat; nra). lra. }
  set (c := 2 * p_far k * p_near k / (p_far k - p_near k)) in *. clearbody c.
  assert (I : vz q < vz p -> / vz p < / vz q) by (intro; apply Rinv_lt_contravar; [nra | lra]).
  assert (I' : vz p <= vz q -> / vz q <= / vz p).
  { intro L. destruct L as [L|L]; [left; apply Rinv_lt_contravar; [nra|lra] | rewrite L; lra]. }
  split; intro H.
  - destruct (Rle_dec (vz p) (vz q)) as [L|L]; [|lra]. specialize (I' L). nra.
  - assert (vz q < vz p) as L by lra. specialize (I L). nra.
Qed.

(** winding *)
Lemma area_camera k (a b c : V3) : usable k -> vz a < 0 -> vz b < 0 -> vz c < 0 ->
  screen_area (ndc (clip k a)) (ndc (clip k b)) (ndc (clip k c)) =
  1 / (tan (p_fov k / 2) * (p_width k / p_height k)) * (1 / tan (p_fov k / 2)) *
  (dot (tri_normal (a, b, c)) (vneg a) / (- vz a * - vz b * - vz c)).
Proof.
  intros U Ha Hb Hc. pose proof (usable_tan k U) as T. destruct U as (_ & W & H & _).
  assert (AR : p_width k / p_height k <> 0) by (apply Rgt_not_eq, Rdiv_lt_0_compat; assumption).
  unfold screen_area, ndc, clip, tri_normal. cbv zeta.
  set (th := tan (p_fov k / 2)) in *. set (ar := p_width k / p_height k) in *. clearbody th ar.
  destruct a as [[a1 a2] a3], b as [[b1 b2] b3], c as [[c1 c2] c3].
  unfold dot, vneg, cross, vsub, vx, vy, vz in *. cbn [fst snd] in *. field. repeat split; lra.
Qed.
Lemma area_sign k (a b c : V3) : usable k -> vz a < 0 -> vz b < 0 -> vz c < 0 ->
  exists m, 0 < m /\ screen_area (ndc (clip k a)) (ndc (clip k b)) (ndc (clip k c)) = m * dot (tri_normal (a, b, c)) (vneg a).
Proof.
  intros U Ha Hb Hc. rewrite area_camera by assumption. pose proof (usable_tan k U) as T. destruct U as (_ & W & H & _).
  assert (AR : 0 < p_width k / p_height k) by (apply Rdiv_lt_0_compat; assumption).
  exists (1 / (tan (p_fov k / 2) * (p_width k / p_height k)) * (1 / tan (p_fov k / 2)) / (- vz a * - vz b * - vz c)).
  assert (P : 0 < - vz a * - vz b * - vz c) by (apply Rmult_lt_0_compat; [apply Rmult_lt_0_compat; lra | lra]).
  split.
  - apply Rdiv_lt_0_compat; [|exact P]. apply Rmult_lt_0_compat; apply Rdiv_lt_0_compat; try lra. now apply Rmult_lt_0_compat.
  - unfold Rdiv. ring.
Qed.
Lemma det_dot_cross (m : M3) (a b c : V3) : dot (cross (mv m a) (mv m b)) (mv m c) = det3 m * dot (cross a b) c.
Proof. unfold det3. geo. ring. Qed.
Lemma normal_camera WrWC qCW WrWB qBW (a b c : V3) : is_rot qCW -> is_rot qBW ->
  let f := in_camera WrWC qCW WrWB qBW in
  dot (tri_normal (f a, f b, f c)) (vneg (f a)) =
  dot (tri_normal (a, b, c)) (vsub (camera_in_object WrWC WrWB qBW) a).
Proof.
  intros QC QB f. unfold tri_normal.
  assert (D : forall p q : V3, vsub (f p) (f q) = mv (mm qCW (mt qBW)) (vsub p q)).
  { intros p q. unfold f, in_camera. rewrite <- mv_sub. rewrite mv_mm. f_equal. rewrite mv_sub.
    generalize (mv (mt qBW) p) (mv (mt qBW) q). intros. veq. }
  assert (E : vneg (f a) = mv (mm qCW (mt qBW)) (vsub (camera_in_object WrWC WrWB qBW) a)).
  { unfold f, in_camera, camera_in_object. rewrite mv_mm, (mv_sub (mt qBW)), rot_inv_l by exact QB.
    rewrite <- mv_neg. f_equal. generalize (mv (mt qBW) a). intros. veq. }
  rewrite !D, E, det_dot_cross.
  assert (R : is_rot (mm qCW (mt qBW))) by (apply rot_mm; [exact QC | now apply rot_tr]).
  destruct R as (_ & _ & ->). ring.
Qed.
