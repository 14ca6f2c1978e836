(** C83: the initialisation of new features. *)
From Coq Require Import Reals Lra Lia Arith Bool.
From Verif Require Import Geo DistModel DistSpec DistProps MultiModel MultiProofs MultiProps FiltModel FiltProps CovModel CovSpec CovProps BornModel BornSpec.
Local Open Scope R_scope.

Lemma param_index id : init_index id (id + 2) = 0%nat.
Proof. unfold init_index. destruct (Nat.eqb_spec (id + 2) (id + 2)); [reflexivity|congruence]. Qed.
Lemma param_belongs id : belongs id (id + 2).
Proof. unfold belongs. lia. Qed.
Lemma reset_facts D id init cov : (id + 3 <= D)%nat -> same_elsewhere D id cov (reset_feature D id init cov) /\ uncorrelated D id (reset_feature D id init cov) /\ reset_feature D id init cov (id + 2)%nat (id + 2)%nat = init 0%nat 0%nat.
Proof.
  intros H. split; [|split].
  - intros i j Hi Hj Ni Nj. now apply C34_others_unchanged.
  - intros i j Hi Hj Bi Nj. now apply C34_decorrelated.
  - rewrite C34_initial_block by (auto using param_belongs). now rewrite param_index.
Qed.
(** Whatever happens, only the entries of this feature change, and it is uncorrelated with the rest. *)
Theorem C83_only_this_feature : forall cf x D id cam t p0 nor1 seen cov, (id + 3 <= D)%nat ->
  same_elsewhere D id cov (snd (init_feature cf x D id cam t p0 nor1 seen cov)) /\ uncorrelated D id (snd (init_feature cf x D id cam t p0 nor1 seen cov)).
Proof.
  intros cf x D id cam t p0 nor1 seen cov H. unfold init_feature. set (d := {| fd_type := t; fd_p := p0 |}).
  destruct (reset_facts D id (scaled_cov cf d) cov H) as (A & B & _).
  destruct (_ && _); [|split; assumption]. destruct seen as [n|]; [|split; assumption]. destruct (triangulate _ _ _ _ _ _) as [[] d']; [|split; assumption]. cbn [snd].
  destruct (reset_facts D id (b_cov cf) (reset_feature D id (scaled_cov cf d) cov) H) as (A' & B' & _). split; [|exact B'].
  intros i j Hi Hj Ni Nj. rewrite A' by auto. now apply A.
Qed.
Print Assumptions C83_only_this_feature.
(** a valid covariance stays valid, for every outcome *)
Theorem C83_stays_covariance : forall cf x D id cam t p0 nor1 seen cov, (id + 3 <= D)%nat -> covariance D cov -> covariance 3 (b_cov cf) -> (forall k, (0 < k < 3)%nat -> b_cov cf 0%nat k = 0 /\ b_cov cf k 0%nat = 0) ->
  covariance D (snd (init_feature cf x D id cam t p0 nor1 seen cov)).
Proof.
  intros cf x D id cam t p0 nor1 seen cov H C CI Z. unfold init_feature. set (d := {| fd_type := t; fd_p := p0 |}).
  assert (CS : covariance 3 (scaled_cov cf d)).
  { destruct CI as [S P]. split.
    - intros i j Hi Hj. unfold scaled_cov. rewrite (andb_comm (j =? 0)%nat). destruct ((i =? 0)%nat && (j =? 0)%nat); [reflexivity|]. now apply S.
    - intros v. set (k := parameter_derivative d * get_distance d). specialize (P (fun i => if (i =? 0)%nat then k * v i else v i)).
      destruct (Z 1%nat ltac:(lia)) as [Z1 Z2], (Z 2%nat ltac:(lia)) as [Z3 Z4].
      unfold quad, AlignModel.fsum, scaled_cov in *. cbn [Nat.eqb andb] in *. fold k. rewrite Z1, Z2, Z3, Z4 in *. eapply Rle_trans; [exact P|]. apply Req_le. ring. }
  pose proof (C34_stays_covariance D id _ cov H CS C) as C1.
  destruct (_ && _); [|exact C1]. destruct seen as [n|]; [|exact C1]. destruct (triangulate _ _ _ _ _ _) as [[] d']; [|exact C1]. cbn [snd]. now apply C34_stays_covariance.
Qed.
Print Assumptions C83_stays_covariance.
Lemma rays_meet x cam o n1 n2 d1 d2 : is_rot (qCM x cam) -> is_rot (qCM x o) -> point_at x cam n1 d1 = point_at x o n2 d2 ->
  vadd (baseline x cam o) (vscale d1 (mv (relative_rot x cam o) n1)) = vscale d2 n2.
Proof.
  intros R1 R2 E. unfold baseline, relative_rot. rewrite mv_mm, <- mv_scale, <- mv_scale, <- mv_add. unfold point_at in E.
  replace (vadd (vsub (MrMC x cam) (MrMC x o)) (mv (mt (qCM x cam)) (vscale d1 n1))) with (vsub (vadd (MrMC x cam) (mv (mt (qCM x cam)) (vscale d1 n1))) (MrMC x o)) by veq.
  rewrite E. replace (vsub (vadd (MrMC x o) (mv (mt (qCM x o)) (vscale d2 n2))) (MrMC x o)) with (mv (mt (qCM x o)) (vscale d2 n2)) by veq. now apply rot_inv_r.
Qed.
Lemma rel_cos x cam o n1 n2 : dot (mv (relative_rot x cam o) n1) n2 = ray_cos x cam n1 o n2.
Proof. unfold ray_cos, relative_rot. rewrite mv_mm, (mv_dot (qCM x o)). reflexivity. Qed.
Lemma rel_rot x cam o : is_rot (qCM x cam) -> is_rot (qCM x o) -> is_rot (relative_rot x cam o).
Proof. intros. apply rot_mm; auto using rot_tr. Qed.
Lemma no_stereo_value cf x D id cam t p0 nor1 seen cov : is_rot (qCM x cam) -> is_rot (qCM x ((cam + 1) mod b_ncam cf)%nat) -> norm nor1 = 1 -> no_stereo cf x cam nor1 seen ->
  init_feature cf x D id cam t p0 nor1 seen cov = (Some {| fd_type := t; fd_p := p0 |}, reset_feature D id (scaled_cov cf {| fd_type := t; fd_p := p0 |}) cov).
Proof.
  intros R1 R2 U1 N. unfold init_feature. set (d := {| fd_type := t; fd_p := p0 |}). destruct N as [seen N|seen N| |nor2 A|nor2 d1 d2 U2 E L].
  - apply Nat.ltb_ge in N. rewrite N. reflexivity.
  - rewrite N, andb_false_r. reflexivity.
  - destruct (_ && _); reflexivity.
  - destruct (_ && _); [|reflexivity]. rewrite C16_nearly_parallel_fails; [reflexivity|]. now rewrite rel_cos.
  - destruct (_ && _); [|reflexivity]. fold (other_cam cf cam) in R2, E. set (o := other_cam cf cam) in *.
    destruct (Rlt_dec (1 - dot (mv (relative_rot x cam o) nor1) nor2 ^ 2) (/ 1000000)) as [P|P]; [now rewrite C16_nearly_parallel_fails|].
    rewrite (C16_meeting_rays _ _ _ _ _ _ d1 d2 (rel_rot x cam o R1 R2) U1 U2 (rays_meet x cam o nor1 nor2 d1 d2 R1 R2 E)) by lra.
    destruct (Rlt_dec d1 (1 / 100)) as [K|K]; [reflexivity|contradiction].
Qed.
(** Without depth from another camera the feature gets the median depth parameter, and a standard deviation
    of its distance that is the configured fraction of the distance, in every parametrisation. *)
Theorem C83_relative_uncertainty : forall cf x D id cam t p0 nor1 seen cov, (id + 3 <= D)%nat -> 0 <= b_cov cf 0%nat 0%nat ->
  is_rot (qCM x cam) -> is_rot (qCM x ((cam + 1) mod b_ncam cf)%nat) -> norm nor1 = 1 -> no_stereo cf x cam nor1 seen ->
  exists d m, init_feature cf x D id cam t p0 nor1 seen cov = (Some d, m) /\ fd_type d = t /\ fd_p d = p0 /\
    sigma_distance d (m (id + 2)%nat (id + 2)%nat) = sqrt (b_cov cf 0%nat 0%nat) * Rabs (get_distance d).
Proof.
  intros cf x D id cam t p0 nor1 seen cov H P R1 R2 U1 N. rewrite no_stereo_value by assumption. set (d := {| fd_type := t; fd_p := p0 |}).
  exists d, (reset_feature D id (scaled_cov cf d) cov). split; [reflexivity|]. split; [reflexivity|]. split; [reflexivity|].
  destruct (reset_facts D id (scaled_cov cf d) cov H) as (_ & _ & V). rewrite V. unfold sigma_distance, scaled_cov. cbn [Nat.eqb andb].
  rewrite sqrt_mult by (auto using pow2_ge_0). rewrite <- Rsqr_pow2, sqrt_Rsqr_abs, Rabs_mult. pose proof (C12_derivatives_reciprocal d) as RC.
  assert (RA : Rabs (distance_derivative d) * Rabs (parameter_derivative d) = 1) by (rewrite <- Rabs_mult, RC; apply Rabs_R1).
  transitivity (sqrt (b_cov cf 0%nat 0%nat) * Rabs (get_distance d) * (Rabs (distance_derivative d) * Rabs (parameter_derivative d))); [ring|]. rewrite RA. ring.
Qed.
Print Assumptions C83_relative_uncertainty.
(** The bearing always gets the configured covariance, which is ordered distance first there and bearing
    first in the filter. *)
Theorem C83_bearing_covariance : forall cf x D id cam t p0 nor1 seen cov i j, (id + 3 <= D)%nat -> (i < 2)%nat -> (j < 2)%nat ->
  snd (init_feature cf x D id cam t p0 nor1 seen cov) (id + i)%nat (id + j)%nat = b_cov cf (1 + i)%nat (1 + j)%nat.
Proof.
  intros cf x D id cam t p0 nor1 seen cov i j H Hi Hj. unfold init_feature. set (d := {| fd_type := t; fd_p := p0 |}).
  assert (X : forall k, (k < 2)%nat -> init_index id (id + k) = (1 + k)%nat) by (intros k Hk; unfold init_index; destruct (Nat.eqb_spec (id + k) (id + 2)); lia).
  assert (B : forall init c, reset_feature D id init c (id + i)%nat (id + j)%nat = init (1 + i)%nat (1 + j)%nat) by (intros init c; rewrite C34_initial_block by (unfold belongs; lia); now rewrite !X).
  assert (B1 : reset_feature D id (scaled_cov cf d) cov (id + i)%nat (id + j)%nat = b_cov cf (1 + i)%nat (1 + j)%nat) by (rewrite B; reflexivity).
  destruct (_ && _); [|exact B1]. destruct seen as [n|]; [|exact B1]. destruct (triangulate _ _ _ _ _ _) as [[] d']; [apply B|exact B1].
Qed.
Print Assumptions C83_bearing_covariance.
(** With stereo: if the aligned bearing in the next camera is that of the same point, and the rays are not
    nearly parallel, the feature gets the distance of the point (unless it is nearer than 1 cm), and the
    configured covariance as it is. *)
Theorem C83_stereo_distance : forall cf x D id cam t p0 nor1 nor2 d1 d2 cov, (1 < b_ncam cf)%nat -> b_stereo cf = true -> let o := ((cam + 1) mod b_ncam cf)%nat in
  is_rot (qCM x cam) -> is_rot (qCM x o) -> norm nor1 = 1 -> norm nor2 = 1 -> (id + 3 <= D)%nat ->
  point_at x cam nor1 d1 = point_at x o nor2 d2 -> / 1000000 <= 1 - ray_cos x cam nor1 o nor2 ^ 2 -> 1 / 100 <= d1 -> representable t d1 ->
  exists d, fst (init_feature cf x D id cam t p0 nor1 (Some nor2) cov) = Some d /\ fd_type d = t /\ get_distance d = d1 /\
    snd (init_feature cf x D id cam t p0 nor1 (Some nor2) cov) (id + 2)%nat (id + 2)%nat = b_cov cf 0%nat 0%nat.
Proof.
  intros cf x D id cam t p0 nor1 nor2 d1 d2 cov N ST o R1 R2 U1 U2 H E A M RP.
  unfold init_feature. apply Nat.ltb_lt in N. rewrite N, ST. cbn [andb]. fold (other_cam cf cam) in o. fold o. change (other_cam cf cam) with o.
  assert (AA : / 1000000 <= 1 - dot (mv (relative_rot x cam o) nor1) nor2 ^ 2) by (now rewrite rel_cos).
  rewrite (C16_meeting_rays nor1 nor2 (baseline x cam o) (relative_rot x cam o) _ (1 / 100) d1 d2 (rel_rot x cam o R1 R2) U1 U2 (rays_meet x cam o nor1 nor2 d1 d2 R1 R2 E) AA).
  destruct (Rlt_dec d1 (1 / 100)) as [L|L]; [lra|].
  assert (Q : exists d, set_parameter {| fd_type := t; fd_p := p0 |} d1 = Some d /\ fd_type d = t /\ get_distance d = d1).
  { destruct (C11_distance_round_trip t d1 RP) as (p & F1 & F2). exists {| fd_type := t; fd_p := p |}. unfold set_parameter. cbn [fd_type]. rewrite F1. auto. }
  destruct Q as (d & Q1 & Q2 & Q3). rewrite Q1. exists d. cbn [fst snd]. split; [reflexivity|]. split; [exact Q2|]. split; [exact Q3|]. now apply reset_facts.
Qed.
Print Assumptions C83_stereo_distance.

(** After stereo initialisation the variance is that of the parameter, not of the relative distance: *)
Theorem C83_stereo_uncertainty : forall cf x D id cam t p0 nor1 nor2 d1 d2 cov, (1 < b_ncam cf)%nat -> b_stereo cf = true -> let o := ((cam + 1) mod b_ncam cf)%nat in
  is_rot (qCM x cam) -> is_rot (qCM x o) -> norm nor1 = 1 -> norm nor2 = 1 -> (id + 3 <= D)%nat ->
  point_at x cam nor1 d1 = point_at x o nor2 d2 -> / 1000000 <= 1 - ray_cos x cam nor1 o nor2 ^ 2 -> 1 / 100 <= d1 -> representable t d1 ->
  exists d m, init_feature cf x D id cam t p0 nor1 (Some nor2) cov = (Some d, m) /\ get_distance d = d1 /\
    sigma_distance d (m (id + 2)%nat (id + 2)%nat) = sqrt (b_cov cf 0%nat 0%nat) * match t with REGULAR => 1 | INVERSE => d1 ^ 2 | LOG => d1 | HYPERBOLIC => sqrt (d1 ^ 2 + 1) end.
Proof.
  intros cf x D id cam t p0 nor1 nor2 d1 d2 cov N ST o R1 R2 U1 U2 H E A M RP.
  destruct (C83_stereo_distance cf x D id cam t p0 nor1 nor2 d1 d2 cov N ST R1 R2 U1 U2 H E A M RP) as (d & E1 & E2 & E3 & E4).
  destruct (init_feature cf x D id cam t p0 nor1 (Some nor2) cov) as [d' m] eqn:EI. cbn [fst snd] in E1, E4. subst d'. exists d, m. split; [reflexivity|]. split; [exact E3|].
  rewrite E4. unfold sigma_distance. rewrite Rmult_comm. f_equal. destruct d as [t' p]. cbn [fd_type] in E2. subst t'. unfold get_distance in E3. cbn [fd_type fd_p] in E3. unfold distance_derivative. cbn [fd_type fd_p].
  destruct t; cbn [dist_of] in E3.
  - apply Rabs_R1.
  - pose proof (C11_no_division_by_zero p) as Z. rewrite <- E3. replace (- 1 / (make_non_zero p * make_non_zero p)) with (- (1 / make_non_zero p) ^ 2) by (field; exact Z).
    rewrite Rabs_Ropp. apply Rabs_pos_eq, pow2_ge_0.
  - rewrite E3. apply Rabs_pos_eq. lra.
  - rewrite <- E3. assert (C : 0 < cosh p) by (unfold cosh; pose proof (exp_pos p); pose proof (exp_pos (- p)); lra).
    rewrite Rabs_pos_eq by lra. symmetry. apply sqrt_lem_1; [pose proof (pow2_ge_0 (sinh p)); lra|lra|].
    unfold sinh, cosh. assert (X : exp p * exp (- p) = 1) by (rewrite <- exp_plus, Rplus_opp_r; apply exp_0). nra.
Qed.
Print Assumptions C83_stereo_uncertainty.
(** two cameras 1.5 m apart looking the same way, and a point 2 m in front of the first *)
Definition xb : state := {| x_pos := v0; x_vel := v0; x_acb := v0; x_gyb := v0; x_att := m1;
  x_vep := fun c => match c with 0%nat => v0 | _ => (3 / 2, 0, 0) end; x_vea := fun _ => m1;
  x_fea := x_fea ex_x; x_pop := fun _ => v0; x_poa := fun _ => m1;
  x_aux := {| a_wmeas := v0; a_west := v0; a_wcov := m1; a_calib := true; a_qCM := fun _ => m1; a_MrMC := fun _ => v0; a_timerI := 0; a_timerV := 0 |} |}.
Definition cb (rel : R) : bcfg := {| b_ncam := 2; b_stereo := true; b_cov := fun i j => if (i =? j)%nat then rel else 0 |}.
Lemma unit_b : norm (- 3 / 5, 0, 4 / 5) = 1.
Proof. unfold norm, dot, vx, vy, vz. cbn [fst snd]. replace (_ + _) with 1 by field. apply sqrt_1. Qed.
Lemma meet_b : point_at xb 0 (0, 0, 1) 2 = point_at xb 1 (- 3 / 5, 0, 4 / 5) (5 / 2).
Proof. unfold point_at, qCM, MrMC. cbn [x_aux a_calib xb x_vea x_vep]. rewrite mt_1, !mv_m1. unfold v0, vadd, vscale, vx, vy, vz. cbn [fst snd]. apply pair_equal_spec; split; [apply pair_equal_spec; split|]; field. Qed.
Lemma cos_b : ray_cos xb 0 (0, 0, 1) 1 (- 3 / 5, 0, 4 / 5) = 4 / 5.
Proof. unfold ray_cos, qCM. cbn [x_aux a_calib xb x_vea]. rewrite mt_1, !mv_m1. unfold dot, vx, vy, vz. cbn [fst snd]. field. Qed.
Lemma rot_b c : is_rot (qCM xb c).
Proof. exact rot_1. Qed.
(** the configured relative uncertainty of the distance is not what a stereo-initialised feature has *)
Theorem C83_stereo_relative_uncertainty_refuted : forall rel, 0 < rel ->
  exists x nor1 nor2 d1 d2 d m, is_rot (qCM x 0) /\ is_rot (qCM x 1) /\ norm nor1 = 1 /\ norm nor2 = 1 /\ point_at x 0 nor1 d1 = point_at x 1 nor2 d2 /\
    init_feature (cb rel) x 24 21 0 INVERSE 1 nor1 (Some nor2) (fun _ _ => 0) = (Some d, m) /\ get_distance d = d1 /\ 0 < d1 /\
    sigma_distance d (m 23%nat 23%nat) = 2 * (sqrt (b_cov (cb rel) 0%nat 0%nat) * get_distance d) /\ 0 < sqrt (b_cov (cb rel) 0%nat 0%nat) * get_distance d.
Proof.
  intros rel P. destruct (C83_stereo_uncertainty (cb rel) xb 24 21 0 INVERSE 1 (0, 0, 1) (- 3 / 5, 0, 4 / 5) 2 (5 / 2) (fun _ _ => 0)) as (d & m & E & G & S).
  - cbn. lia.
  - reflexivity.
  - apply rot_b.
  - apply rot_b.
  - exact unit_z.
  - exact unit_b.
  - lia.
  - exact meet_b.
  - change ((0 + 1) mod b_ncam (cb rel))%nat with 1%nat. rewrite cos_b. lra.
  - lra.
  - cbn. rewrite Rabs_pos_eq; lra.
  - exists xb, (0, 0, 1), (- 3 / 5, 0, 4 / 5), 2, (5 / 2), d, m. split; [apply rot_b|]. split; [apply rot_b|]. split; [exact unit_z|]. split; [exact unit_b|]. split; [exact meet_b|]. split; [exact E|]. split; [exact G|]. split; [lra|].
    rewrite G. change (21 + 2)%nat with 23%nat in S. split; [rewrite S; ring|]. apply Rmult_lt_0_compat; [apply sqrt_lt_R0; exact P|lra].
Qed.
Print Assumptions C83_stereo_relative_uncertainty_refuted.
(** and the hypotheses of C83_relative_uncertainty: the same cameras, the patch not found in the second *)
Example C83_ex_no_stereo : exists d m, init_feature (cb (/ 4)) xb 24 21 0 INVERSE (/ 2) (0, 0, 1) None (fun _ _ => 7) = (Some d, m) /\
  get_distance d = 2 /\ sigma_distance d (m 23%nat 23%nat) = 1 /\ m 0%nat 20%nat = 7 /\ m 22%nat 20%nat = 0.
Proof.
  destruct (C83_relative_uncertainty (cb (/ 4)) xb 24 21 0 INVERSE (/ 2) (0, 0, 1) None (fun _ _ => 7)) as (d & m & E & T & Q & S); [lia|cbn; lra|apply rot_b|apply rot_b|exact unit_z|apply not_found|].
  destruct (C83_only_this_feature (cb (/ 4)) xb 24 21 0 INVERSE (/ 2) (0, 0, 1) None (fun _ _ => 7) ltac:(lia)) as [A B]. rewrite E in A, B. cbn [snd] in A, B.
  assert (G : get_distance d = 2).
  { destruct d as [t p]. cbn [fd_type fd_p] in T, Q. subst. unfold get_distance. cbn [fd_type fd_p dist_of]. unfold make_non_zero, eps. destruct (Rlt_dec (/ 2) _); [exfalso; lra|field]. }
  exists d, m. split; [exact E|]. split; [exact G|]. change (21 + 2)%nat with 23%nat in S. split; [|split].
  - rewrite S, G. cbn. replace (/ 4) with (/ 2 * / 2) by field. rewrite sqrt_square by lra. rewrite Rabs_pos_eq; lra.
  - rewrite A; [reflexivity|lia|lia|unfold belongs; lia|unfold belongs; lia].
  - apply (B 22%nat 20%nat); unfold belongs; lia.
Qed.
