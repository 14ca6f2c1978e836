From Coq Require Import Reals Lra Psatz Arith.
From Verif Require Import Geo DistModel DistSpec DistProofs MultiModel MultiSpec.
Local Open Scope R_scope.

(** ** triangulation *)
Lemma tri_num v1 v2 r : dot v1 (mv (madd m1 (mneg (outer v2 v2))) r) = dot v1 r - dot v1 v2 * dot v2 r.
Proof. geo. ring. Qed.

Lemma tri_exact nor1 nor2 r q d min_d d1 d2 :
  is_rot q -> norm nor1 = 1 -> norm nor2 = 1 ->
  vadd r (vscale d1 (mv q nor1)) = vscale d2 nor2 ->
  / 1000000 <= 1 - dot (mv q nor1) nor2 ^ 2 ->
  triangulate nor1 nor2 r q d min_d =
    if Rlt_dec d1 min_d then (false, Some d) else (true, set_parameter d d1).
Proof.
  intros Hq H1 H2 HM Ha. unfold triangulate. set (v1 := mv q nor1) in *.
  assert (U1 : dot v1 v1 = 1). { unfold v1. rewrite rot_dot by auto. now apply norm_unit. }
  apply norm_unit in H2.
  destruct (Rlt_dec _ _) as [L|_]; [lra|]. rewrite tri_num.
  assert (R : r = vsub (vscale d2 nor2) (vscale d1 v1)) by (rewrite <- HM, vsub_add; auto).
  replace (- (dot v1 r - dot v1 nor2 * dot nor2 r) / (1 - dot v1 nor2 ^ 2)) with d1; [reflexivity|].
  rewrite R, !dot_sub_r, !dot_scale_r, U1, H2, (dot_comm nor2 v1). field. lra.
Qed.

Lemma tri_fail_keeps nor1 nor2 r q d min_d d' : triangulate nor1 nor2 r q d min_d = (false, d') -> d' = Some d.
Proof. unfold triangulate. repeat destruct (Rlt_dec _ _); congruence. Qed.
Lemma tri_parallel nor1 nor2 r q d min_d : 1 - dot (mv q nor1) nor2 ^ 2 < / 1000000 -> triangulate nor1 nor2 r q d min_d = (false, Some d).
Proof. unfold triangulate. destruct (Rlt_dec _ _); [auto|contradiction]. Qed.

(** rays that do not meet: the returned distance minimises the distance to the other ray's line *)
Lemma tri_least_squares nor1 nor2 r q d min_d d' :
  is_rot q -> norm nor1 = 1 -> norm nor2 = 1 ->
  triangulate nor1 nor2 r q d min_d = (true, d') ->
  exists dist mu, d' = set_parameter d dist /\ min_d <= dist /\
    forall s t, norm (vsub (vadd r (vscale dist (mv q nor1))) (vscale mu nor2)) <=
                norm (vsub (vadd r (vscale s (mv q nor1))) (vscale t nor2)).
Proof.
  intros Hq H1 H2 H. unfold triangulate in H. set (v1 := mv q nor1) in *.
  assert (U1 : dot v1 v1 = 1). { unfold v1. rewrite rot_dot by auto. now apply norm_unit. }
  apply norm_unit in H2.
  destruct (Rlt_dec _ _) as [|La]; [discriminate|]. destruct (Rlt_dec _ _) as [|Lm] in H; [discriminate|]. injection H as <-.
  rewrite tri_num in *. set (c := dot v1 nor2) in *.
  set (dist := - (dot v1 r - c * dot nor2 r) / (1 - c ^ 2)) in *.
  exists dist, (dot nor2 r + dist * c). split; [reflexivity|]. split; [lra|]. intros s t.
  apply sqrt_le_1_alt.
  assert (A : 0 < 1 - c ^ 2) by lra.
  assert (Ed : dist * (1 - c ^ 2) = - (dot v1 r - c * dot nor2 r)) by (unfold dist; field; lra).
  set (rr := dot r r). set (p := dot v1 r) in *. set (w := dot nor2 r) in *.
  assert (Q : forall s t, dot (vsub (vadd r (vscale s v1)) (vscale t nor2)) (vsub (vadd r (vscale s v1)) (vscale t nor2)) =
     rr + s * s + t * t + 2 * s * p - 2 * t * w - 2 * s * t * c).
  { intros s0 t0. rewrite !dot_sub_l, !dot_sub_r, !dot_add_l, !dot_add_r, !dot_scale_l, !dot_scale_r.
    rewrite U1, H2, (dot_comm r v1), (dot_comm r nor2), (dot_comm nor2 v1). fold c p w rr. ring. }
  rewrite !Q.
  assert (E : rr + s * s + t * t + 2 * s * p - 2 * t * w - 2 * s * t * c
     - (rr + dist * dist + (w + dist * c) * (w + dist * c) + 2 * dist * p - 2 * (w + dist * c) * w - 2 * dist * (w + dist * c) * c)
     = (t - w - s * c) ^ 2 + (1 - c ^ 2) * (s - dist) ^ 2 + 2 * (s - dist) * (dist * (1 - c ^ 2) + (p - c * w))) by ring.
  rewrite Ed in E. replace (- (p - c * w) + (p - c * w)) with 0 in E by ring.
  pose proof (pow2_ge_0 (t - w - s * c)). pose proof (pow2_ge_0 (s - dist)). nra.
Qed.

(** ** transfer *)
Lemma DrDP_eq e i f : rigid e ->
  mv (mm (qCB e i) (mt (qCB e (f_cam f)))) (vsub (vscale (get_distance (f_dist f)) (f_nor f)) (mv (qCB e (f_cam f)) (vsub (BrBC e i) (BrBC e (f_cam f)))))
  = mv (qCB e i) (vsub (body_point e f) (BrBC e i)).
Proof.
  intros HR. set (j := f_cam f). rewrite mv_mm. f_equal. rewrite mv_sub, rot_inv_l by apply HR.
  unfold body_point. fold j. set (p := mv (mt (qCB e j)) _). clearbody p. set (a := BrBC e i). set (b := BrBC e j). clearbody a b.
  clear. veq.
Qed.

Lemma get_set d x d' : set_parameter d x = Some d' -> representable (fd_type d) x -> get_distance d' = x.
Proof.
  unfold set_parameter. intros H Hr.
  destruct (round_trip _ _ Hr) as (p&Hp&Hd). rewrite Hp in H. injection H as <-. exact Hd.
Qed.

Lemma transfer_same e f dout : transform_feature e (f_cam f) f dout = Some f.
Proof. unfold transform_feature. now rewrite Nat.eqb_refl. Qed.

Lemma transfer_some e i f dout : rigid e -> representable (fd_type dout) (range_from e i f) ->
  exists g, transform_feature e i f dout = Some g /\ f_cam g = i.
Proof.
  intros HR Hr. unfold transform_feature. destruct (Nat.eqb_spec (f_cam f) i) as [E|E]; [eauto|].
  rewrite DrDP_eq, rot_norm by auto. fold (range_from e i f).
  unfold set_parameter. destruct (round_trip _ _ Hr) as (p&Hp&_). rewrite Hp. cbn. eauto.
Qed.

Lemma transfer_spec e i f dout g : rigid e -> i <> f_cam f -> transform_feature e i f dout = Some g ->
  f_cam g = i /\ f_nor g = set_from_vector (mv (qCB e i) (vsub (body_point e f) (BrBC e i))) /\
  set_parameter dout (range_from e i f) = Some (f_dist g).
Proof.
  intros HR Hi H. unfold transform_feature in H. destruct (Nat.eqb_spec (f_cam f) i) as [E|E]; [congruence|].
  rewrite DrDP_eq in H by auto. rewrite rot_norm in H by auto. fold (range_from e i f) in H.
  destruct (set_parameter dout (range_from e i f)); [|discriminate]. injection H as <-. auto.
Qed.

Lemma set_from_scale v : norm v <> 0 -> vscale (norm v) (set_from_vector v) = v.
Proof. intros H. unfold set_from_vector. rewrite vscale_scale, Rinv_r, vscale_1; auto. Qed.
Lemma set_from_unit v : norm v <> 0 -> norm (set_from_vector v) = 1.
Proof.
  intros H. unfold set_from_vector. rewrite norm_scale, Rabs_inv. pose proof (norm_nonneg v).
  rewrite Rabs_pos_eq by auto. now apply Rinv_l.
Qed.
Lemma set_from_ray s v : 0 < s -> norm v = 1 -> set_from_vector (vscale s v) = v.
Proof.
  intros Hs Hv. unfold set_from_vector. rewrite norm_scale, Hv, Rmult_1_r, Rabs_pos_eq by lra.
  rewrite vscale_scale, Rinv_l, vscale_1 by lra. reflexivity.
Qed.

Lemma transfer_point e i f dout g : rigid e -> transform_feature e i f dout = Some g ->
  representable (fd_type dout) (range_from e i f) -> range_from e i f <> 0 ->
  body_point e g = body_point e f /\ (norm (f_nor f) = 1 -> norm (f_nor g) = 1).
Proof.
  intros HR H Hr Hn. destruct (Nat.eq_dec i (f_cam f)) as [->|Hi].
  - rewrite transfer_same in H. injection H as <-. auto.
  - destruct (transfer_spec _ _ _ _ _ HR Hi H) as (C&N&D).
    assert (HN : norm (mv (qCB e i) (vsub (body_point e f) (BrBC e i))) = range_from e i f) by (rewrite rot_norm by auto; reflexivity).
    split.
    + unfold body_point at 1. rewrite C, N. rewrite (get_set _ _ _ D Hr).
      rewrite <- HN, set_from_scale by (rewrite HN; auto). rewrite rot_inv_l by auto.
      rewrite vadd_comm, vadd_sub. reflexivity.
    + intros _. rewrite N. apply set_from_unit. rewrite HN. auto.
Qed.

Lemma body_minus e f : vsub (body_point e f) (BrBC e (f_cam f)) = mv (mt (qCB e (f_cam f))) (vscale (get_distance (f_dist f)) (f_nor f)).
Proof. unfold body_point. rewrite vadd_comm, vsub_add. reflexivity. Qed.

Lemma transfer_back e i f dout g dback h : rigid e ->
  norm (f_nor f) = 1 -> 0 < get_distance (f_dist f) ->
  representable (fd_type dout) (range_from e i f) -> range_from e i f <> 0 ->
  representable (fd_type dback) (get_distance (f_dist f)) ->
  transform_feature e i f dout = Some g -> transform_feature e (f_cam f) g dback = Some h ->
  f_cam h = f_cam f /\ f_nor h = f_nor f /\ get_distance (f_dist h) = get_distance (f_dist f).
Proof.
  intros HR U P R1 N1 R2 H1 H2.
  destruct (transfer_point _ _ _ _ _ HR H1 R1 N1) as [B _].
  destruct (Nat.eq_dec i (f_cam f)) as [->|Hi].
  - rewrite transfer_same in H1. injection H1 as <-. rewrite transfer_same in H2. injection H2 as <-. auto.
  - destruct (transfer_spec _ _ _ _ _ HR Hi H1) as (C&_&_).
    destruct (transfer_spec e (f_cam f) g dback h HR ltac:(rewrite C; auto) H2) as (C2&N2&D2).
    unfold range_from in D2. rewrite B, body_minus in N2, D2.
    rewrite rot_inv_r in N2 by auto. rewrite rot_norm, norm_scale, U, Rmult_1_r, Rabs_pos_eq in D2 by (try apply rot_tr; auto; lra).
    split; [auto|]. split; [rewrite N2; now apply set_from_ray|]. now apply (get_set _ _ _ D2).
Qed.
