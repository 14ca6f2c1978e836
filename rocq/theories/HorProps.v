(** C82: the virtual horizon. *)
From Coq Require Import ZArith Reals Lra Lia.
From Verif Require Import Geo FiltModel FiltProps EllModel HorModel HorSpec HorProofs.
Local Open Scope R_scope.

Lemma down_unit x c : is_rot (x_att x) -> is_rot (qCM x c) -> Geo.dot (down x c) (down x c) = 1.
Proof. intros A B. unfold down. rewrite (rot_dot _ _ _ B), (rot_dot _ _ _ (rot_tr _ A)). geo. ring. Qed.
(** every camera has exactly one elevation *)
Theorem C82_elevation : forall x c, is_rot (x_att x) -> is_rot (qCM x c) -> exists! e, elevation x c e.
Proof.
  intros x c A B. pose proof (down_unit x c A B) as U. exists (asin (Geo.vz (optical_axis x c))).
  assert (V : -1 <= Geo.vz (optical_axis x c) <= 1).
  { rewrite vz_axis. revert U. destruct (down x c) as [[p q] r]. unfold Geo.dot. cbn. intros. nra. }
  split.
  - split; [apply asin_bound|now apply sin_asin].
  - intros e [B1 E]. rewrite <- E. apply asin_sin. lra.
Qed.
Lemma not_vertical x c e : is_rot (x_att x) -> is_rot (qCM x c) -> elevation x c e -> Rabs e <= PI / 3 -> Geo.vx (down x c) <> 0 \/ Geo.vy (down x c) <> 0.
Proof.
  intros A B [_ E] S. pose proof (down_unit x c A B) as U. rewrite vz_axis in E. pose proof PI_RGT_0 as P.
  assert (H : Rabs (sin e) < 1).
  { rewrite <- sin_PI2. assert (- (PI / 3) <= e <= PI / 3) by (revert S; unfold Rabs; destruct (Rcase_abs e); lra).
    apply Rabs_def1; [|rewrite <- sin_neg]; apply sin_increasing_1; lra. }
  rewrite E, Rabs_Ropp in H. destruct (Req_dec (Geo.vx (down x c)) 0) as [X|X]; [|auto]. destruct (Req_dec (Geo.vy (down x c)) 0) as [Y|Y]; [|auto].
  exfalso. unfold Geo.dot in U. rewrite X, Y in U. assert (Rabs (Geo.vz (down x c)) * Rabs (Geo.vz (down x c)) = 1) by (rewrite <- Rabs_mult; replace (Geo.vz (down x c) * Geo.vz (down x c)) with 1 by lra; apply Rabs_R1).
  pose proof (Rabs_pos (Geo.vz (down x c))). nra.
Qed.
(** While the camera looks at most 60 degrees up or down, the filled part of the disc is the ground: the
    part below a line perpendicular to the direction of gravity in the image, 5 pixels below the centre
    for every 10 degrees the optical axis points above the horizon - up to the width of one degree on the
    circle, because the ends of the arc are cut to whole degrees. *)
Theorem C82_horizon : forall x c e, is_rot (x_att x) -> is_rot (qCM x c) -> elevation x c e -> Rabs e <= PI / 3 -> exists a b, horizon x c = Some (a, b) /\ (a <= b)%Z /\
  (forall t, t = IZR a \/ t = IZR b -> Rabs (below_centre x c (disc_point t) - pixels e) <= slack) /\
  (forall t, IZR a <= t <= IZR b -> pixels e - slack <= below_centre x c (disc_point t)) /\
  (forall t, IZR b <= t <= IZR a + 360 -> below_centre x c (disc_point t) <= pixels e + slack).
Proof.
  intros x c e A B EL S. pose proof (not_vertical x c e A B EL S) as NZ.
  eexists _, _. split; [exact (arc_some x c e EL S)|]. pose proof (a_le_b x c e) as AB.
  set (a := (roll (gravity x c) - - asin (3 * e / PI)) / PI * 180) in *. set (b := (roll (gravity x c) + - asin (3 * e / PI)) / PI * 180 + 180) in *.
  pose proof (to_deg_near a) as NA. pose proof (to_deg_near b) as NB.
  assert (AB' : a <= b) by (apply AB; auto). clear AB.
  split; [now apply to_deg_mono|].
  assert (NEAR : forall t s, Rabs (t - s) <= 1 -> Rabs (below_centre x c (disc_point t) - below_centre x c (disc_point s)) <= slack) by (intros t s H; apply (depth_near x c); auto).
  split; [|split].
  - intros t [->| ->].
    + rewrite <- (depth_ends x c e NZ S a) by (left; reflexivity). apply NEAR. rewrite Rabs_minus_sym. lra.
    + rewrite <- (depth_ends x c e NZ S b) by (right; reflexivity). apply NEAR. rewrite Rabs_minus_sym. lra.
  - intros t [T1 T2]. destruct (Rabs_def2 _ _ NA) as [A1 A2], (Rabs_def2 _ _ NB) as [B1 B2].
    set (s := Rmax a (Rmin t b)). assert (Q : Rabs (t - s) <= 1 /\ a <= s <= b).
    { unfold s, Rmax, Rmin. destruct (Rle_dec t b), (Rle_dec a _); split; try (split; lra); try (apply Rabs_le; lra). }
    destruct Q as [Q1 Q2]. pose proof (NEAR t s Q1) as N. pose proof (depth_inside x c e NZ S s Q2) as D.
    revert N. unfold Rabs. destruct (Rcase_abs _); lra.
  - intros t [T1 T2]. destruct (Rabs_def2 _ _ NA) as [A1 A2], (Rabs_def2 _ _ NB) as [B1 B2].
    assert (W : b <= a + 360). { pose proof (a_rad x c e) as X1. pose proof (b_rad x c e) as X2. pose proof (o_bound e) as O. pose proof PI_RGT_0 as P. fold a in X1. fold b in X2. apply (Rmult_le_reg_r (PI / 180)); lra. }
    set (s := Rmax b (Rmin t (a + 360))). assert (Q : Rabs (t - s) <= 1 /\ b <= s <= a + 360).
    { unfold s, Rmax, Rmin. destruct (Rle_dec t (a + 360)), (Rle_dec b _); split; try (split; lra); try (apply Rabs_le; lra). }
    destruct Q as [Q1 Q2]. pose proof (NEAR t s Q1) as N. pose proof (depth_outside x c e NZ S s Q2) as D.
    revert N. unfold Rabs. destruct (Rcase_abs _); lra.
Qed.
(** Looking steeper than 60 degrees up or down the position of the horizon is not a number, which is
    then converted to an integer: the drawing is undefined for exactly these attitudes. *)
Theorem C82_undefined_iff_steep : forall x c e, is_rot (x_att x) -> is_rot (qCM x c) -> elevation x c e -> (horizon x c = None <-> PI / 3 < Rabs e).
Proof. intros x c e _ _ EL. now apply arc_none. Qed.
(** so a camera that looks straight down has no horizon *)
Definition look (q : M3) : state :=
  {| x_pos := v0; x_vel := v0; x_acb := v0; x_gyb := v0; x_att := m1; x_vep := x_vep ex_x; x_vea := x_vea ex_x; x_fea := x_fea ex_x; x_pop := x_pop ex_x; x_poa := x_poa ex_x;
     x_aux := {| a_wmeas := v0; a_west := v0; a_wcov := m1; a_calib := false; a_qCM := fun _ => q; a_MrMC := fun _ => v0; a_timerI := 0; a_timerV := 0 |} |}.
Definition nadir : M3 := ((1, 0, 0), (0, -1, 0), (0, 0, -1)).
Definition ahead : M3 := ((0, -1, 0), (0, 0, -1), (1, 0, 0)).
Lemma nadir_rot : is_rot nadir. Proof. repeat split; unfold mm, mt, m1, nadir, det3, Geo.dot, cross, r0, r1, r2, Geo.vx, Geo.vy, Geo.vz; cbn; try (repeat f_equal; ring); ring. Qed.
Lemma ahead_rot : is_rot ahead. Proof. repeat split; unfold mm, mt, m1, ahead, det3, Geo.dot, cross, r0, r1, r2, Geo.vx, Geo.vy, Geo.vz; cbn; try (repeat f_equal; ring); ring. Qed.
Theorem C82_always_drawn_refuted : exists x c, is_rot (x_att x) /\ is_rot (qCM x c) /\ horizon x c = None.
Proof.
  exists (look nadir), 0%nat. split; [exact rot_1|]. split; [exact nadir_rot|].
  assert (EL : elevation (look nadir) 0 (- (PI / 2))).
  { pose proof PI_RGT_0. split; [lra|]. rewrite sin_neg, sin_PI2. unfold optical_axis, look, qCM. cbn [x_att x_aux a_calib a_qCM]. unfold nadir. geo. ring. }
  apply (proj2 (arc_none _ _ _ EL)). rewrite Rabs_Ropp, Rabs_right; pose proof PI_RGT_0; lra.
Qed.
(** and one that looks ahead has it through the centre *)
Example C82_ex : elevation (look ahead) 0 0 /\ (exists a b, horizon (look ahead) 0 = Some (a, b)) /\ pixels 0 = 0 /\ pixels (PI / 6) = 15.
Proof.
  assert (EL : elevation (look ahead) 0 0).
  { pose proof PI_RGT_0. split; [lra|]. rewrite sin_0. unfold optical_axis, look, qCM. cbn [x_att x_aux a_calib a_qCM]. unfold ahead. geo. ring. }
  split; [exact EL|]. split; [|unfold pixels; split; field; apply PI_neq0].
  destruct (C82_horizon (look ahead) 0 0 rot_1 ahead_rot EL) as (a & b & H & _); [rewrite Rabs_R0; pose proof PI_RGT_0; lra|]. now exists a, b.
Qed.
Print Assumptions C82_elevation.
Print Assumptions C82_horizon.
Print Assumptions C82_undefined_iff_steep.
Print Assumptions C82_always_drawn_refuted.
