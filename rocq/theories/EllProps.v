(** C79: the uncertainty ellipse of a pixel. C80: the depth uncertainty of a triangulated point. *)
From Coq Require Import ZArith Reals Lra Lia Psatz.
From Verif Require Import EllModel EllSpec EllProofs.
Local Open Scope R_scope.

(** ** C79 *)
(** [m] is the covariance, [e] what the eigenvalue solver returned for it *)
(** The two standard deviations are those along the two stored directions; the first is the largest and
    the second the smallest over all directions. *)
Theorem C79_axes : forall m e, symmetric m -> semidefinite m -> solved m e -> exists el, set_pixel_cov e = Some el /\
  0 <= el_s2 el <= el_s1 el /\ unit2 (el_v1 el) /\ unit2 (el_v2 el) /\
  sqrt (variance m (el_v1 el)) = el_s1 el /\ sqrt (variance m (el_v2 el)) = el_s2 el /\
  forall u, unit2 u -> el_s2 el <= sqrt (variance m u) <= el_s1 el.
Proof.
  intros m e SY SD SO. destruct (set_some m e SY SO SD) as (el & E & [S2 S1] & X & Y & CX & SY' & U & _ & VF & V1 & V2 & U1 & U2 & _).
  exists el. split; [exact E|]. split; [lra|]. split; [exact U1|]. split; [exact U2|]. rewrite V1, V2, !sqrt_pow2 by lra. split; [reflexivity|]. split; [reflexivity|].
  intros u Hu. unfold unit2 in Hu. rewrite VF. set (p := fst u * X + snd u * Y). set (q := snd u * X - fst u * Y).
  assert (PQ : p ^ 2 + q ^ 2 = 1) by (unfold p, q; transitivity ((fst u ^ 2 + snd u ^ 2) * (X ^ 2 + Y ^ 2)); [ring|rewrite Hu, U; ring]). clearbody p q.
  assert (P0 : 0 <= p ^ 2) by nra. assert (Q0 : 0 <= q ^ 2) by nra. assert (SS : el_s2 el ^ 2 <= el_s1 el ^ 2) by (apply pow_incr; lra).
  split; [rewrite <- (sqrt_pow2 (el_s2 el)) at 1 by lra|rewrite <- (sqrt_pow2 (el_s1 el)) at 2 by lra]; apply sqrt_le_1_alt; nra.
Qed.
(** The angle is the direction of the first axis. *)
Theorem C79_angle : forall m e, symmetric m -> semidefinite m -> solved m e -> exists el, set_pixel_cov e = Some el /\
  let u := (cos (el_angle el), sin (el_angle el)) in u = el_v1 el \/ u = opposite (el_v1 el).
Proof.
  intros m e SY SD SO. destruct (set_some m e SY SO SD) as (el & E & _ & X & Y & CX & SY' & U & [V|V] & _); exists el; (split; [exact E|]); cbv zeta; rewrite CX, SY', V.
  - now left.
  - right. unfold opposite. cbn. f_equal; ring.
Qed.
(** The curve drawn with a scale factor is exactly the set of offsets of that Mahalanobis distance. *)
Theorem C79_curve : forall m e, symmetric m -> semidefinite m -> solved m e -> 0 < det2 m -> exists el, set_pixel_cov e = Some el /\
  forall k d, 0 < k -> (exists t, ellipse_curve k el t = d) <-> mahalanobis m d = k ^ 2.
Proof.
  intros m e SY SD SO DP. destruct (set_some m e SY SO SD) as (el & E & [S2 S1] & X & Y & CX & SY' & U & _ & VF & _ & _ & _ & _ & DE).
  exists el. split; [exact E|]. intros k [dx dy] K. set (s1 := el_s1 el) in *. set (s2 := el_s2 el) in *.
  assert (P2 : 0 < s2) by (destruct S2 as [L|Z]; [exact L|exfalso; rewrite <- Z in DE; rewrite DE in DP; lra]). assert (P1 : 0 < s1) by lra.
  unfold ellipse_curve, curve. fold s1 s2. rewrite CX, SY'.
  assert (MF : mahalanobis m (dx, dy) = ((dx * X + dy * Y) / s1) ^ 2 + ((dy * X - dx * Y) / s2) ^ 2).
  { unfold mahalanobis. cbn [fst snd]. rewrite DE.
    assert (N : v11 m * dx ^ 2 - (v01 m + v10 m) * dx * dy + v00 m * dy ^ 2 = s1 ^ 2 * (dy * X - dx * Y) ^ 2 + s2 ^ 2 * (dx * X + dy * Y) ^ 2).
    { transitivity (variance m (- dy, dx)); [unfold variance; cbn; ring|]. rewrite VF. cbn [fst snd]. ring. }
    rewrite N. field. lra. }
  rewrite MF. split.
  - intros (t & H). injection H as Hx Hy. pose proof (sin2_cos2 t) as SC. unfold Rsqr in SC.
    assert (A : dx * X + dy * Y = k * s1 * cos t) by (rewrite <- Hx, <- Hy; transitivity (k * s1 * cos t * (X ^ 2 + Y ^ 2)); [ring|rewrite U; ring]).
    assert (B : dy * X - dx * Y = k * s2 * sin t) by (rewrite <- Hx, <- Hy; transitivity (k * s2 * sin t * (X ^ 2 + Y ^ 2)); [ring|rewrite U; ring]).
    rewrite A, B. transitivity (k ^ 2 * (sin t * sin t + cos t * cos t)); [field; lra|rewrite SC; ring].
  - intros H. destruct (circle ((dx * X + dy * Y) / (k * s1)) ((dy * X - dx * Y) / (k * s2))) as (t & CT & ST).
    { transitivity ((((dx * X + dy * Y) / s1) ^ 2 + ((dy * X - dx * Y) / s2) ^ 2) / k ^ 2); [field; lra|rewrite H; field; lra]. }
    exists t. rewrite CT, ST. f_equal.
    + transitivity (dx * (X ^ 2 + Y ^ 2)); [field; lra|rewrite U; ring].
    + transitivity (dy * (X ^ 2 + Y ^ 2)); [field; lra|rewrite U; ring].
Qed.
(** A matrix that is not positive semidefinite leaves standard deviations that are not numbers. *)
Theorem C79_defined_iff : forall m e, symmetric m -> solved m e -> set_pixel_cov e <> None <-> semidefinite m.
Proof.
  intros m e SY SO. rewrite (semidefinite_eigen m e SY SO). unfold set_pixel_cov, root. destruct (Rlt_dec (e_l0 e) 0), (Rlt_dec (e_l1 e) 0); split; intros H; try (exfalso; now apply H); try lra; discriminate.
Qed.
(** The drawn half axes are at least a pixel and otherwise the scaled standard deviations to the nearest pixel. *)
Theorem C79_drawn_axes : forall k s, 0 <= k * s -> (1 <= half_axis k s)%Z /\ (half_axis k s = 1%Z \/ - / 2 <= k * s - IZR (half_axis k s) < / 2) /\ (/ 2 <= k * s -> Rabs (k * s - IZR (half_axis k s)) <= / 2) /\ (k * s < / 2 -> half_axis k s = 1%Z).
Proof.
  intros k s P. unfold half_axis. set (z := Int_part (k * s + / 2)). destruct (base_Int_part (k * s + / 2)) as [B1 B2]. fold z in B1, B2.
  split; [lia|]. split; [|split].
  - destruct (Z.le_gt_cases z 1); [left; lia|right]. rewrite Z.max_l by lia. lra.
  - intros H. assert (1 <= z)%Z by (assert (0 < z)%Z by (apply lt_IZR; lra); lia). rewrite Z.max_l by lia. apply Rabs_le. lra.
  - intros H. assert (z < 1)%Z by (apply lt_IZR; lra). lia.
Qed.
Example C79_ex : let m := {| v00 := 5; v01 := 2; v10 := 2; v11 := 2 |} in
  let e := {| e_l0 := 1; e_l1 := 6; e_v0 := (1 / sqrt 5, -2 / sqrt 5); e_v1 := (2 / sqrt 5, 1 / sqrt 5) |} in
  symmetric m /\ semidefinite m /\ solved m e /\ 0 < det2 m.
Proof.
  cbv zeta. assert (P : 0 < sqrt 5) by (apply sqrt_lt_R0; lra). assert (Q : sqrt 5 ^ 2 = 5) by (apply pow2_sqrt; lra).
  assert (U : forall a b, a ^ 2 + b ^ 2 = 5 -> (a / sqrt 5) ^ 2 + (b / sqrt 5) ^ 2 = 1) by (intros a b H; transitivity ((a ^ 2 + b ^ 2) / sqrt 5 ^ 2); [field; lra|rewrite Q, H; field]).
  split; [reflexivity|]. split; [intros [a b]; unfold variance; cbn; nra|]. split; [|unfold det2; cbn; lra].
  split; [|split]; unfold eigenpair, unit2; cbn [v00 v01 v10 v11 e_l0 e_l1 e_v0 e_v1 fst snd].
  - split; [field; lra|]. split; [field; lra|]. apply U. ring.
  - split; [field; lra|]. split; [field; lra|]. apply U. ring.
  - intros H. assert (X : 1 / sqrt 5 * (1 / sqrt 5) - -2 / sqrt 5 * (2 / sqrt 5) = 5 / sqrt 5 ^ 2) by (field; lra). rewrite H, Q in X. lra.
Qed.
Example C79_ex_axes : half_axis 2 3 = 6%Z.
Proof. unfold half_axis. replace (Int_part (2 * 3 + / 2)) with 6%Z; [reflexivity|]. unfold Int_part. rewrite <- (tech_up (2 * 3 + / 2) 7); [reflexivity|lra|lra]. Qed.

(** ** C80 *)
(** [f] is the bearing of the point in the first camera, [t] the second camera, [d] the distance *)
(** The returned uncertainty leads to the point of the ray that the second camera sees under an angle to
    the baseline larger by the given error. *)
Theorem C80_point_seen_with_error : forall f t d err, oblique f t -> 0 < d -> 
  let beta := corner_angle origin t (scale d f) in 0 < beta + err -> corner_angle t origin (scale d f) + beta + err < PI ->
  0 < d + tau f t d err /\ corner_angle origin t (scale (d + tau f t d err) f) = beta + err.
Proof.
  intros f t d err OB D0.
  assert (CB : forall k, corner_angle origin t (scale k f) = tau_beta f t k).
  { intros k. unfold corner_angle, tau_beta. cbv zeta. f_equal.
    assert (N : norm (sub origin t) = norm t) by (unfold norm; f_equal; unfold dot, sub, origin; cbn; ring). rewrite N. f_equal. unfold dot, sub, origin, scale; cbn; ring. }
  assert (CA : corner_angle t origin (scale d f) = tau_alpha f t).
  { unfold corner_angle, tau_alpha. f_equal. assert (N : norm (sub t origin) = norm t) by (unfold norm; f_equal; unfold dot, sub, origin; cbn; ring).
    assert (N2 : norm (sub (scale d f) origin) = d).
    { transitivity (sqrt (d ^ 2)); [|apply sqrt_pow2; lra]. unfold norm. f_equal. transitivity (d ^ 2 * dot f f); [unfold dot, sub, scale, origin; cbn; ring|]. rewrite (proj1 OB). ring. }
    rewrite N, N2. pose proof (T_pos f t OB). replace (dot (sub t origin) (sub (scale d f) origin)) with (d * dot f t) by (unfold dot, sub, scale, origin; cbn; ring). field. lra. }
  cbv zeta. rewrite CA, !CB. intros E1 E2. unfold tau. replace (d + (d_plus f t d err - d)) with (d_plus f t d err) by ring.
  pose proof (dp_pos f t d OB err E1 E2) as DP. split; [exact DP|].
  destruct (dp_eq f t d OB err E1 E2) as (DE & SS & SB). destruct (cos_be f t _ OB DP) as (C1 & C2 & C3). destruct (cos_al f t OB) as (_ & SA & AB).
  pose proof (A_pos f t _ OB DP) as AP. pose proof (T_pos f t OB) as TP.
  set (al := tau_alpha f t) in *. set (bp := tau_beta f t d + err) in *. set (b' := tau_beta f t (d_plus f t d err)) in *. set (dp := d_plus f t d err) in *. set (A := norm (sub (scale dp f) t)) in *. set (T := norm t) in *.
  set (K := T * sin al / sin (al + bp)). assert (KP : 0 < K) by (apply Rdiv_lt_0_compat; [apply Rmult_lt_0_compat|]; auto).
  assert (H1 : A * cos b' = K * cos bp).
  { rewrite C1, DE. unfold K. rewrite sin_plus. assert (X : sin al * cos bp + cos al * sin bp <> 0) by (rewrite <- sin_plus; lra). field. exact X. }
  assert (H2 : A * sin b' = K * sin bp) by (rewrite C2, DE; unfold K; field; lra).
  assert (AK : A = K).
  { pose proof (sin2_cos2 b') as X1. pose proof (sin2_cos2 bp) as X2. unfold Rsqr in X1, X2.
    assert (A ^ 2 = K ^ 2) by (transitivity ((A * sin b') ^ 2 + (A * cos b') ^ 2); [transitivity (A ^ 2 * (sin b' * sin b' + cos b' * cos b')); [rewrite X1; ring|ring]|]; rewrite H1, H2; transitivity (K ^ 2 * (sin bp * sin bp + cos bp * cos bp)); [ring|rewrite X2; ring]).
    nra. }
  rewrite AK in H1. apply Rmult_eq_reg_l in H1; [|lra]. rewrite <- (acos_cos b') by lra. rewrite H1. apply acos_cos. unfold bp in *. lra.
Qed.
(** without error there is no uncertainty, and it grows with the error *)
Theorem C80_monotone : forall f t d e1 e2, oblique f t -> 0 < d -> 0 <= e1 < e2 -> tau_alpha f t + tau_beta f t d + e2 < PI ->
  tau f t d 0 = 0 /\ 0 <= tau f t d e1 < tau f t d e2.
Proof.
  intros f t d e1 e2 OB D0 [E0 E1] E2. destruct (cos_al f t OB) as (_ & SA & AB). destruct (cos_be f t d OB D0) as (_ & _ & BB). destruct (angle_sum f t d OB D0) as (S1 & _). pose proof (T_pos f t OB) as TP.
  assert (F : forall e, 0 <= e <= e2 -> tau f t d e = norm t * sin (tau_alpha f t) * sin e / (sin (tau_alpha f t + tau_beta f t d) * sin (tau_alpha f t + (tau_beta f t d + e)))) by (intros e He; apply tau_form; auto; lra).
  set (al := tau_alpha f t) in *. set (be := tau_beta f t d) in *. set (T := norm t) in *. clearbody al be T.
  assert (Z : tau f t d 0 = 0) by (rewrite F by lra; rewrite sin_0; unfold Rdiv; ring). split; [exact Z|].
  assert (S3 : 0 < sin (al + be)) by (apply sin_gt_0; lra).
  assert (P : forall e, 0 <= e <= e2 -> 0 < sin (al + (be + e))) by (intros; apply sin_gt_0; lra).
  pose proof (P e1 ltac:(lra)) as P1. pose proof (P e2 ltac:(lra)) as P2. rewrite !F by lra.
  assert (TS : 0 < T * sin al) by (apply Rmult_lt_0_compat; auto). split.
  - apply Rmult_le_pos; [apply Rmult_le_pos; [lra|apply sin_ge_0; lra]|]. left. apply Rinv_0_lt_compat, Rmult_lt_0_compat; auto.
  - assert (DF : T * sin al * sin e2 / (sin (al + be) * sin (al + (be + e2))) - T * sin al * sin e1 / (sin (al + be) * sin (al + (be + e1))) =
      T * sin al * sin (e2 - e1) / (sin (al + (be + e1)) * sin (al + (be + e2)))).
    { assert (ID : sin e2 * sin (al + (be + e1)) - sin e1 * sin (al + (be + e2)) = sin (al + be) * sin (e2 - e1)).
      { replace (al + (be + e1)) with ((al + be) + e1) by ring. replace (al + (be + e2)) with ((al + be) + e2) by ring. rewrite sin_minus, !(sin_plus (al + be)). ring. }
      transitivity (T * sin al * (sin e2 * sin (al + (be + e1)) - sin e1 * sin (al + (be + e2))) / (sin (al + be) * sin (al + (be + e1)) * sin (al + (be + e2)))); [field; lra|]. rewrite ID. field. lra. }
    assert (0 < T * sin al * sin (e2 - e1) / (sin (al + (be + e1)) * sin (al + (be + e2)))) by (apply Rdiv_lt_0_compat; [apply Rmult_lt_0_compat; [auto|apply sin_gt_0; lra]|apply Rmult_lt_0_compat; auto]). lra.
Qed.
(** an error beyond the parallax gives a negative distance *)
Theorem C80_error_beyond_parallax : forall f t d err, oblique f t -> 0 < d -> tau_beta f t d + err < PI -> PI < tau_alpha f t + tau_beta f t d + err ->
  d + tau f t d err < 0.
Proof.
  intros f t d err OB D0 E1 E2. destruct (cos_al f t OB) as (_ & SA & AB). destruct (angle_sum f t d OB D0) as (S1 & _). destruct (cos_be f t d OB D0) as (_ & _ & BB). pose proof (T_pos f t OB) as TP.
  unfold tau. replace (d + (d_plus f t d err - d)) with (d_plus f t d err) by ring. unfold d_plus. cbv zeta. replace (PI - tau_alpha f t - (tau_beta f t d + err)) with (PI - (tau_alpha f t + tau_beta f t d + err)) by ring. rewrite sin_PI_x.
  assert (N : sin (tau_alpha f t + tau_beta f t d + err) < 0) by (apply sin_lt_0; lra). assert (P : 0 < sin (tau_beta f t d + err)) by (apply sin_gt_0; lra).
  unfold Rdiv. apply Ropp_lt_cancel. rewrite Ropp_0, Ropp_mult_distr_r, <- Rinv_opp. apply Rmult_lt_0_compat; [apply Rmult_lt_0_compat; auto|apply Rinv_0_lt_compat; lra].
Qed.
(** moving straight towards a point the result does not depend on the error and is negative *)
Theorem C80_forward_motion_refuted : exists f t d, dot f f = 1 /\ 0 < norm t /\ norm t < d /\ forall err, sin err <> 0 -> tau f t d err < 0.
Proof.
  exists {| vx := 0; vy := 0; vz := 1 |}, {| vx := 0; vy := 0; vz := 1 |}, 3.
  assert (N1 : norm {| vx := 0; vy := 0; vz := 1 |} = 1) by (unfold norm, dot; cbn; transitivity (sqrt 1); [f_equal; ring|exact sqrt_1]).
  split; [unfold dot; cbn; ring|]. rewrite N1. split; [lra|]. split; [lra|]. intros err H.
  assert (AL : tau_alpha {| vx := 0; vy := 0; vz := 1 |} {| vx := 0; vy := 0; vz := 1 |} = 0) by (unfold tau_alpha; rewrite N1; unfold dot; cbn [vx vy vz]; replace ((0 * 0 + 0 * 0 + 1 * 1) / 1) with 1 by field; exact acos_1).
  assert (BE : tau_beta {| vx := 0; vy := 0; vz := 1 |} {| vx := 0; vy := 0; vz := 1 |} 3 = PI).
  { unfold tau_beta. cbv zeta. rewrite N1. assert (N2 : norm (sub (scale 3 {| vx := 0; vy := 0; vz := 1 |}) {| vx := 0; vy := 0; vz := 1 |}) = 2).
    { unfold norm, dot, sub, scale; cbn [vx vy vz]. transitivity (sqrt (2 ^ 2)); [f_equal; ring|apply sqrt_pow2; lra]. }
    rewrite N2. unfold dot, sub, scale; cbn [vx vy vz].
    match goal with |- acos ?x = _ => replace x with (-1) by field end. rewrite <- cos_PI. apply acos_cos. pose proof PI_RGT_0. lra. }
  unfold tau, d_plus. cbv zeta. rewrite AL, BE, N1. replace (PI - 0 - (PI + err)) with (- err) by ring. rewrite sin_neg, Rplus_comm, neg_sin. 
  replace (1 * - sin err / - sin err) with 1 by (field; lra). lra.
Qed.
Example C80_ex : let f := {| vx := 0; vy := 0; vz := 1 |} in let t := {| vx := 1; vy := 0; vz := 0 |} in oblique f t /\ tau_alpha f t = PI / 2.
Proof.
  cbv zeta. assert (N1 : norm {| vx := 1; vy := 0; vz := 0 |} = 1) by (unfold norm, dot; cbn; transitivity (sqrt 1); [f_equal; ring|exact sqrt_1]).
  split; [split; unfold dot; cbn; lra|]. unfold tau_alpha. rewrite N1. unfold dot; cbn [vx vy vz]. replace ((0 * 1 + 0 * 0 + 1 * 0) / 1) with 0 by field. exact acos_0.
Qed.
Print Assumptions C79_axes.
Print Assumptions C79_angle.
Print Assumptions C79_curve.
Print Assumptions C79_defined_iff.
Print Assumptions C79_drawn_axes.
Print Assumptions C80_point_seen_with_error.
Print Assumptions C80_monotone.
Print Assumptions C80_error_beyond_parallax.
Print Assumptions C80_forward_motion_refuted.
