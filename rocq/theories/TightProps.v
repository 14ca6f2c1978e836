(** C11, C14, C76, C79, C84: further theorems about initial and forgotten values, noise and the covariance
    of the predicted pixel. *)
From Coq Require Import List Bool Reals Lra ZArith String.
From Verif Require Import DistModel EllModel EllSpec InnoModel CamModel CalModel CalSpec CalProps CoordModel CoordSpec.
Import ListNotations.

(** ** C14 *)
Definition sets_coordinate {Pix Bea Mat : Type} (o : op Pix Bea Mat) : bool := match o with OSetC _ _ | OSetNor _ _ => true | _ => false end.
Section Forget.
Context {Pix Bea Mat : Type} (mI m0 : Mat) (mul : Mat -> Mat -> Mat) (minv : Mat -> option Mat).
Definition blank (s : fc Pix Bea Mat) : Prop := valid_c s = false /\ valid_nor s = false.
Lemma blank_c s s' b : blank s -> com_c s = Some (s', b) -> b = false /\ blank s'.
Proof. intros [C N]. unfold com_c. rewrite C, N. destruct (cam_ s); intros [= <- <-]. repeat split; assumption. Qed.
Lemma blank_nor s s' b : blank s -> com_nor s = Some (s', b) -> b = false /\ blank s'.
Proof. intros [C N]. unfold com_nor. rewrite C, N. destruct (cam_ s); intros [= <- <-]. repeat split; assumption. Qed.
Lemma blank_J s s' J : blank s -> get_J m0 s = Some (s', J) -> blank s'.
Proof.
  intros B. unfold get_J. destruct (cam_ s) as [k|]; [|discriminate]. destruct (com_nor s) as [[s1 b]|] eqn:E; [|discriminate].
  destruct (blank_nor _ _ _ B E) as [_ [C N]]. destruct (to_pixel k (nor_ s1)); intros [= <- <-]; split; assumption.
Qed.
Lemma blank_step s o s' : blank s -> sets_coordinate o = false -> step mI m0 mul minv s o = Some s' -> blank s'.
Proof.
  intros B A. destruct o; cbn [step]; try discriminate A; try (intros [= <-]; split; solve [reflexivity|exact (proj1 B)|exact (proj2 B)]).
  - destruct (com_c s) as [[s1 b]|] eqn:E; [|discriminate]. intros [= <-]. exact (proj2 (blank_c _ _ _ B E)).
  - destruct (com_nor s) as [[s1 b]|] eqn:E; [|discriminate]. intros [= <-]. exact (proj2 (blank_nor _ _ _ B E)).
  - destruct (get_J m0 s) as [[s1 J]|] eqn:E; [|discriminate]. intros [= <-]. exact (blank_J _ _ _ B E).
  - unfold com_warp_c. destruct (valid_wc s); [intros [= <-]; exact B|]. destruct (valid_wn s); [|intros [= <-]; exact B].
    destruct (com_c s) as [[s1 b]|] eqn:E; [|discriminate]. destruct (blank_c _ _ _ B E) as [-> B1]. intros [= <-]. exact B1.
  - unfold com_warp_nor. destruct (valid_wn s); [intros [= <-]; exact B|]. destruct (valid_wc s); [|intros [= <-]; exact B].
    destruct (com_c s) as [[s1 b]|] eqn:E; [|discriminate]. destruct (blank_c _ _ _ B E) as [-> B1]. intros [= <-]. exact B1.
Qed.
Lemma run_two : forall os (s : fc Pix Bea Mat) o, run mI m0 mul minv s (o :: os) = match step mI m0 mul minv s o with Some s1 => run mI m0 mul minv s1 os | None => None end.
Proof. reflexivity. Qed.
Lemma blank_run : forall os s s', blank s -> existsb sets_coordinate os = false -> run mI m0 mul minv s os = Some s' -> blank s'.
Proof.
  induction os as [|o os IH]; intros s s' B F R; [injection R as <-; exact B|]. cbn [existsb] in F. apply orb_false_elim in F as [F1 F2].
  rewrite run_two in R. destruct (step mI m0 mul minv s o) as [s1|] eqn:E; [|discriminate]. exact (IH _ _ (blank_step _ _ _ B F1 E) F2 R).
Qed.
End Forget.

(** A reset forgets both views: until a coordinate is set again no read of the pixel or of the bearing
    succeeds, whatever was set or read before. *)
Theorem C14_reset_forgets : forall (Pix Bea Mat : Type) (mI m0 : Mat) mul minv (s s' : fc Pix Bea Mat) os, 
  existsb sets_coordinate os = false ->
  run mI m0 mul minv s (OReset :: os) = Some s' ->
  (forall s1 b, com_c s' = Some (s1, b) -> b = false) /\ (forall s1 b, com_nor s' = Some (s1, b) -> b = false).
Proof.
  intros Pix Bea Mat mI m0 mul minv s s' os F R. rewrite run_two in R. cbn [step] in R.
  assert (B : blank s') by (refine (blank_run mI m0 mul minv os _ _ _ F R); split; reflexivity).
  split; intros s1 b E; [exact (proj1 (blank_c _ _ _ B E))|exact (proj1 (blank_nor _ _ _ B E))].
Qed.
Print Assumptions C14_reset_forgets.
Example C14_reset_ex : let k := {| to_pixel := fun n : Z => Some n; to_bearing := fun p : Z => (true, p); jac := fun _ => tt |} in
  exists s', run tt tt (fun _ _ => tt) Some (fresh tt k false 0%Z 0%Z tt) [OSetC 5%Z true; OGetNor; OReset; OGetC; OGetJ; OSetWarpId] = Some s' /\ existsb sets_coordinate [@OGetC Z Z unit; OGetJ; OSetWarpId] = false.
Proof. cbv zeta. eexists. split; reflexivity. Qed.

Local Open Scope R_scope.
(** ** C76 *)
(** In direct mode, too, the noise is added with unit gain, whether or not the equations exist. *)
Theorem C76_direct_noise_is_added : forall cams frame dold eqs k i nz x,
  innovation_direct cams frame dold eqs k i nz x =
  ((fst (fst (innovation_direct cams frame dold eqs k i (0, 0) x)) + fst nz, snd (fst (innovation_direct cams frame dold eqs k i (0, 0) x)) + snd nz),
   snd (innovation_direct cams frame dold eqs k i (0, 0) x)).
Proof.
  intros. unfold innovation_direct. destruct nz as [n1 n2]. cbn [fst snd].
  destruct (predicted cams frame dold k i x) as [c|]; [destruct (eqs k c) as [[A b]|]|]; cbn [fst snd]; repeat f_equal; ring.
Qed.
Print Assumptions C76_direct_noise_is_added.

(** ** C79 *)
Definition cov_of (m : mat2) : cov2 := let '(a, b, c, d) := m in {| v00 := a; v01 := b; v10 := c; v11 := d |}.
(** The covariance of the predicted pixel: its variance along an image direction is that of the bearing
    along the direction the Jacobian pulls back; so it is symmetric and positive semidefinite whenever that of the bearing is, as the ellipse requires. *)
Theorem C79_predicted_pixel_covariance : forall (a b c d : R) P,
  let V := cov_of (pixel_cov (a, b, c, d) P) in
  (forall u, variance V u = variance (cov_of P) (a * fst u + c * snd u, b * fst u + d * snd u)) /\
  (symmetric (cov_of P) -> symmetric V) /\ (semidefinite (cov_of P) -> semidefinite V).
Proof.
  intros a b c d [[[p q] r] s] V.
  assert (E : forall u, variance V u = variance (cov_of (p, q, r, s)) (a * fst u + c * snd u, b * fst u + d * snd u)).
  { intros [u v]. unfold V, variance. cbn. ring. }
  split; [exact E|]. split.
  - unfold symmetric, V. cbn. intros ->. ring.
  - intros H u. rewrite E. apply H.
Qed.
Print Assumptions C79_predicted_pixel_covariance.
Example C79_predicted_ex : pixel_cov (400, 0, 0, 300) (1, / 2, / 2, 1) = (160000, 60000, 60000, 90000) /\ symmetric (cov_of (1, / 2, / 2, 1)) /\ semidefinite (cov_of (1, / 2, / 2, 1)).
Proof.
  split; [cbn; repeat (apply f_equal2; [|lra]); lra|]. split; [reflexivity|]. intros [u v]. unfold variance. cbn -[pow]. 
  replace (_ + _ + _) with ((u + v / 2) ^ 2 + 3 / 4 * v ^ 2) by field. pose proof (pow2_ge_0 (u + v / 2)). pose proof (pow2_ge_0 v). lra.
Qed.

(** ** C84 *)
(** A camera whose calibration file names an unknown model sees with unit focal length and no distortion. *)
Theorem C84_unconfigured_camera : forall y m x v z, y_model y = Some m -> ~ known_model y -> 0 < z ->
  exists c, load (Some y) new_camera = Done c /\ bearing_to_pixel (cam_of c) (x, v, z) = Some (x / z, v / z).
Proof.
  intros y m x v z E N Z. exists new_camera. split; [exact (C84_unknown_model_is_ignored y m new_camera E N)|].
  rewrite C84_camera_matrix by (try exact Z; reflexivity). f_equal. unfold times. cbn. f_equal; field; lra.
Qed.
Print Assumptions C84_unconfigured_camera.
Example C84_unconfigured_ex : let y := {| y_model := Some "omni"%string; y_K := []; y_D := []; y_radius := None |} in ~ known_model y.
Proof. cbv. intros [H|[H|[H|[]]]]; discriminate H. Qed.

(** ** C11 *)
(** A new distance has parameter one: one metre, and e metres and sinh 1 metres in the two nonlinear parametrisations. *)
Theorem C11_new_distance : get_distance (mk REGULAR) = 1 /\ get_distance (mk INVERSE) = 1 /\ get_distance (mk LOG) = exp 1 /\ get_distance (mk HYPERBOLIC) = (exp 1 - exp (- 1)) / 2.
Proof.
  repeat split. unfold get_distance, mk, dist_of, make_non_zero, eps. cbn [fd_type fd_p].
  destruct (Rlt_dec 1 (/ 1000000)); [lra|]. field.
Qed.
Print Assumptions C11_new_distance.
