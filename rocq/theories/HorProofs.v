(** Lemmas for C82. *)
From Coq Require Import ZArith Reals Lra Lia.
From Verif Require Import Geo FiltModel EllModel EllProofs HorModel HorSpec.
Local Open Scope R_scope.

Lemma atan2_scale k y x : 0 < k -> atan2 (k * y) (k * x) = atan2 y x.
Proof.
  intros K. unfold atan2.
  assert (S : forall a, (0 < k * a <-> 0 < a) /\ (k * a < 0 <-> a < 0) /\ (0 <= k * a <-> 0 <= a)).
  { intros a. destruct (Rtotal_order a 0) as [H|[->|H]].
    - assert (k * a < 0) by nra. lra.
    - rewrite Rmult_0_r. lra.
    - assert (0 < k * a) by nra. lra. }
  destruct (S x) as (X1 & X2 & _), (S y) as (Y1 & Y2 & Y3).
  assert (Q : x <> 0 -> k * y / (k * x) = y / x) by (intros X; field; lra).
  destruct (Rlt_dec 0 (k * x)) as [A|A], (Rlt_dec 0 x) as [B|B]; try tauto; [now rewrite Q by lra|].
  destruct (Rlt_dec (k * x) 0) as [A'|A'], (Rlt_dec x 0) as [B'|B']; try tauto.
  - rewrite Q by lra. destruct (Rle_dec 0 (k * y)), (Rle_dec 0 y); try tauto; reflexivity.
  - destruct (Rlt_dec 0 (k * y)), (Rlt_dec 0 y); try tauto. destruct (Rlt_dec (k * y) 0), (Rlt_dec y 0); try tauto; reflexivity.
Qed.
Lemma to_deg_near x : Rabs (x - IZR (to_deg x)) < 1.
Proof.
  unfold to_deg. destruct (Rlt_dec x 0).
  - rewrite opp_IZR. pose proof (base_Int_part (- x)) as [A B]. apply Rabs_def1; lra.
  - pose proof (base_Int_part x) as [A B]. apply Rabs_def1; lra.
Qed.
Lemma Int_part_mono x y : x <= y -> (Int_part x <= Int_part y)%Z.
Proof.
  intros H. destruct (base_Int_part x) as [A _], (base_Int_part y) as [_ B]. apply Z.lt_succ_r, lt_IZR. rewrite succ_IZR. lra.
Qed.
Lemma to_deg_mono x y : x <= y -> (to_deg x <= to_deg y)%Z.
Proof.
  intros H. unfold to_deg. destruct (Rlt_dec x 0), (Rlt_dec y 0); try lra.
  - pose proof (Int_part_mono (- y) (- x) ltac:(lra)). lia.
  - pose proof (Int_part_mono 0 (- x) ltac:(lra)). pose proof (Int_part_mono 0 y ltac:(lra)). assert (Int_part 0 = 0%Z) by (unfold Int_part; pose proof (tech_up 0 1 ltac:(lra) ltac:(lra)); lia). lia.
  - now apply Int_part_mono.
Qed.
(** cosines of close angles are close *)
Lemma cos_lip_pos a b : a < b -> Rabs (cos b - cos a) <= b - a.
Proof.
  intros H. destruct (MVT_cor2 cos (fun x => - sin x) a b H) as (c & E & _).
  { intros c _. apply derivable_pt_lim_cos. }
  rewrite E, Rabs_mult, Rabs_Ropp. rewrite (Rabs_right (b - a)) by lra. pose proof (SIN_bound c). assert (Rabs (sin c) <= 1) by (apply Rabs_le; lra). pose proof (Rabs_pos (sin c)). nra.
Qed.
Lemma cos_lip a b : Rabs (cos a - cos b) <= Rabs (a - b).
Proof.
  destruct (Rtotal_order a b) as [H|[->|H]].
  - rewrite Rabs_minus_sym, (Rabs_minus_sym a). rewrite (Rabs_right (b - a)) by lra. now apply cos_lip_pos.
  - rewrite !Rminus_diag_eq by reflexivity. rewrite !Rabs_R0. lra.
  - rewrite (Rabs_right (a - b)) by lra. now apply cos_lip_pos.
Qed.
Lemma gravity_down x c : gravity x c = down x c.
Proof. unfold gravity, down. now rewrite mv_mm. Qed.
Lemma vz_axis x c : Geo.vz (optical_axis x c) = - Geo.vz (down x c).
Proof. unfold optical_axis, down. destruct (x_att x) as [[[[a b] d] [[e f] g]] [[h i] j]], (qCM x c) as [[[[a' b'] d'] [[e' f'] g']] [[h' i'] j']]. geo. ring. Qed.
(** the pitch is the elevation of the optical axis *)
Lemma pitch_elevation x c e : elevation x c e -> pitch (gravity x c) = e.
Proof.
  intros [B E]. rewrite vz_axis in E. unfold pitch. rewrite gravity_down. replace (Geo.dot (down x c) (0, 0, 1)) with (Geo.vz (down x c)) by (destruct (down x c) as [[? ?] ?]; geo; ring).
  replace (Geo.vz (down x c)) with (cos (e + PI / 2)).
  - rewrite acos_cos; lra.
  - rewrite cos_plus, cos_PI2, sin_PI2. lra.
Qed.
Section Arc.
Variables (x : state) (c : nat) (e : R).
Hypothesis EL : elevation x c e.
Notation g := (gravity x c).
Lemma arc_arg : pitch g / PI * 180 / 10 * 5 / 30 = 3 * e / PI.
Proof. rewrite (pitch_elevation x c e EL). field. apply PI_neq0. Qed.
Lemma arg_small : Rabs (3 * e / PI) <= 1 <-> Rabs e <= PI / 3.
Proof.
  pose proof PI_RGT_0 as P. unfold Rdiv. rewrite !Rabs_mult, (Rabs_right 3), (Rabs_right (/ PI)); [|pose proof (Rinv_0_lt_compat _ P); lra|lra].
  split; intros H.
  - apply (Rmult_le_compat_r PI) in H; [|lra]. rewrite Rmult_assoc, Rinv_l in H; lra.
  - apply (Rmult_le_reg_r PI); [exact P|]. rewrite Rmult_assoc, Rinv_l; lra.
Qed.
Lemma arc_none : horizon x c = None <-> PI / 3 < Rabs e.
Proof.
  unfold horizon, horizon_arc, pitch_offset, arc_asin. rewrite arc_arg. destruct (Rle_dec (Rabs (3 * e / PI)) 1) as [H|H]; cbn.
  - apply arg_small in H. split; [discriminate|lra].
  - rewrite arg_small in H. split; [intros _; lra|reflexivity].
Qed.
Hypothesis NZ : Geo.vx (down x c) <> 0 \/ Geo.vy (down x c) <> 0.
Hypothesis SM : Rabs e <= PI / 3.
Let k := sqrt (Geo.vx (down x c) ^ 2 + Geo.vy (down x c) ^ 2).
Let phi := atan2 (Geo.vy g) (Geo.vx g).
Lemma k_pos : 0 < k.
Proof. apply sqrt_lt_R0. destruct NZ as [H|H]; pose proof (Rsqr_pos_lt _ H) as HH; unfold Rsqr in HH; [pose proof (pow2_ge_0 (Geo.vy (down x c)))|pose proof (pow2_ge_0 (Geo.vx (down x c)))]; cbn in *; lra. Qed.
Lemma phi_dir : cos phi = fst (image_down x c) /\ sin phi = snd (image_down x c).
Proof.
  pose proof k_pos as K. unfold image_down. cbn [fst snd]. fold k. unfold phi. rewrite gravity_down.
  assert (U : (Geo.vx (down x c) / k) ^ 2 + (Geo.vy (down x c) / k) ^ 2 = 1).
  { assert (S : k * k = Geo.vx (down x c) ^ 2 + Geo.vy (down x c) ^ 2). { apply sqrt_sqrt. pose proof (pow2_ge_0 (Geo.vx (down x c))). pose proof (pow2_ge_0 (Geo.vy (down x c))). lra. }
    replace ((Geo.vx (down x c) / k) ^ 2 + (Geo.vy (down x c) / k) ^ 2) with ((Geo.vx (down x c) ^ 2 + Geo.vy (down x c) ^ 2) / (k * k)) by (field; lra). rewrite <- S. field. lra. }
  destruct (atan2_polar _ _ U) as [A B]. rewrite <- (atan2_scale (/ k)) by now apply Rinv_0_lt_compat.
  rewrite (Rmult_comm (/ k) (Geo.vy _)), (Rmult_comm (/ k) (Geo.vx _)). split; [exact A|exact B].
Qed.
(** the depth below the centre of a point of the circle *)
Lemma depth_at t : below_centre x c (disc_point t) = 30 * cos (t * PI / 180 - phi).
Proof. unfold below_centre, disc_point. cbn [fst snd]. destruct phi_dir as [<- <-]. rewrite cos_minus. ring. Qed.
Let o := - asin (3 * e / PI).
Let a := (roll g - o) / PI * 180.
Let b := (roll g + o) / PI * 180 + 180.
Lemma arc_some : horizon x c = Some (to_deg a, to_deg b).
Proof.
  unfold horizon, horizon_arc, pitch_offset, arc_asin. rewrite arc_arg. destruct (Rle_dec (Rabs (3 * e / PI)) 1) as [H|H]; [reflexivity|]. exfalso. now apply H, arg_small.
Qed.
Lemma o_bound : - (PI / 2) <= o <= PI / 2.
Proof. unfold o. pose proof (asin_bound (3 * e / PI)). lra. Qed.
Lemma sin_o : sin o = - (3 * e / PI).
Proof. unfold o. rewrite sin_neg, sin_asin; [reflexivity|]. apply arg_small in SM. revert SM. unfold Rabs. destruct (Rcase_abs _); lra. Qed.
Lemma a_rad : a * PI / 180 - phi = - (PI / 2 + o).
Proof. unfold a, roll. fold phi. field. apply PI_neq0. Qed.
Lemma b_rad : b * PI / 180 - phi = PI / 2 + o.
Proof. unfold b, roll. fold phi. field. apply PI_neq0. Qed.
Lemma a_le_b : a <= b.
Proof.
  pose proof PI_RGT_0 as P. pose proof o_bound. pose proof a_rad. pose proof b_rad. apply (Rmult_le_reg_r (PI / 180)); lra.
Qed.
Lemma depth_ends t : t = a \/ t = b -> below_centre x c (disc_point t) = pixels e.
Proof.
  intros [->| ->]; rewrite depth_at; [rewrite a_rad, cos_neg|rewrite b_rad]; rewrite cos_plus, cos_PI2, sin_PI2, sin_o; unfold pixels; field; apply PI_neq0.
Qed.
Lemma depth_inside t : a <= t <= b -> pixels e <= below_centre x c (disc_point t).
Proof.
  intros [A B]. pose proof PI_RGT_0 as P. pose proof o_bound as O. pose proof a_rad as AR. pose proof b_rad as BR.
  rewrite depth_at, <- (depth_ends b (or_intror eq_refl)), depth_at, BR.
  assert (X : - (PI / 2 + o) <= t * PI / 180 - phi <= PI / 2 + o).
  { split; [rewrite <- AR|rewrite <- BR]; apply Rplus_le_compat_r; unfold Rdiv; rewrite !Rmult_assoc; apply Rmult_le_compat_r; lra. }
  apply Rmult_le_compat_l; [lra|]. destruct (Rle_dec 0 (t * PI / 180 - phi)) as [Q|Q].
  - apply cos_decr_1; lra.
  - rewrite <- (cos_neg (t * PI / 180 - phi)). apply cos_decr_1; lra.
Qed.
Lemma depth_outside t : b <= t <= a + 360 -> below_centre x c (disc_point t) <= pixels e.
Proof.
  intros [A B]. pose proof PI_RGT_0 as P. pose proof o_bound as O. pose proof a_rad as AR. pose proof b_rad as BR.
  rewrite depth_at, <- (depth_ends b (or_intror eq_refl)), depth_at, BR.
  assert (X : PI / 2 + o <= t * PI / 180 - phi <= 2 * PI - (PI / 2 + o)).
  { split.
    - rewrite <- BR. apply Rplus_le_compat_r. unfold Rdiv. rewrite !Rmult_assoc. apply Rmult_le_compat_r; lra.
    - replace (2 * PI - (PI / 2 + o)) with ((a + 360) * PI / 180 - phi); [|replace ((a + 360) * PI / 180 - phi) with (a * PI / 180 - phi + 2 * PI) by field; rewrite AR; ring].
      apply Rplus_le_compat_r. unfold Rdiv. rewrite !Rmult_assoc. apply Rmult_le_compat_r; lra. }
  apply Rmult_le_compat_l; [lra|]. destruct (Rle_dec (t * PI / 180 - phi) PI) as [Q|Q].
  - apply cos_decr_1; lra.
  - replace (cos (t * PI / 180 - phi)) with (cos (2 * PI - (t * PI / 180 - phi))); [apply cos_decr_1; lra|]. rewrite cos_minus, cos_2PI, sin_2PI. ring.
Qed.
Lemma depth_near s t : Rabs (s - t) <= 1 -> Rabs (below_centre x c (disc_point s) - below_centre x c (disc_point t)) <= slack.
Proof.
  intros H. pose proof PI_RGT_0 as P. rewrite !depth_at. replace (30 * cos (s * PI / 180 - phi) - 30 * cos (t * PI / 180 - phi)) with (30 * (cos (s * PI / 180 - phi) - cos (t * PI / 180 - phi))) by ring.
  rewrite Rabs_mult, (Rabs_right 30) by lra. unfold slack. apply Rmult_le_compat_l; [lra|]. eapply Rle_trans; [apply cos_lip|].
  replace (s * PI / 180 - phi - (t * PI / 180 - phi)) with ((s - t) * (PI / 180)) by field. rewrite Rabs_mult, (Rabs_right (PI / 180)) by lra.
  replace (PI / 180) with (1 * (PI / 180)) at 2 by ring. apply Rmult_le_compat_r; lra.
Qed.
End Arc.
