(** C86: yaw, pitch and roll of an attitude and the Jacobian used for their covariance. *)
From Coq Require Import Reals Lra.
From Verif Require Import Geo Lie YprModel YprSpec YprProofs.
Local Open Scope R_scope.

(** Every attitude has yaw, pitch and roll angles, with the pitch between straight down and straight up. *)
Theorem C86_angles_exist : forall C, is_rot C -> exists a, attitude a = C /\ - (PI / 2) <= a_pitch a <= PI / 2.
Proof. exact angles_exist. Qed.
Print Assumptions C86_angles_exist.

(** Away from straight up and down the angles follow any small turn smoothly, starting from any angles of
    the attitude ... *)
Theorem C86_angles_are_smooth : forall a w, cos (a_pitch a) <> 0 -> exists f,
  f 0 = a /\ follows f w (attitude a) /\
  exists d, dV (fun t => ypr_vec (f t)) d.
Proof.
  intros a w N. destruct (smooth_exists a w N) as (f & A & B & dy & dp & dr & Y & P & Q). exists f. split; [exact A|]. split; [exact B|].
  exists (dy, dp, dr). split; [exact Y|]. split; [exact P|exact Q].
Qed.
Print Assumptions C86_angles_are_smooth.

(** ... and whenever they do, their rate is the reported Jacobian times the turn. *)
Theorem C86_jacobian : forall f w C d, follows f w C -> cos (a_pitch (f 0)) <> 0 ->
  dV (fun t => ypr_vec (f t)) d -> mv (jac_ypr (f 0) C) w = d.
Proof.
  intros f w C [[dy dp] dr] F N (Y & P & Q). symmetry. exact (jac_ok f w C dy dp dr F N Y P Q).
Qed.
Print Assumptions C86_jacobian.

(** a level attitude with yaw ninety degrees, turned about the vertical *)
Lemma level_turn a : a_pitch a = 0 -> a_roll a = 0 -> mv (jac_ypr a (attitude a)) (0, 0, 1) = (1, 0, 0).
Proof.
  intros P Q. unfold jac_ypr, local_rate_to_diff. rewrite att_entries. cbv zeta. rewrite P, Q, cos_0, sin_0. generalize (cos (a_yaw a)) (sin (a_yaw a)). intros c s.
  unfold mv, mm, mt, dot, r0, r1, r2, vx, vy, vz. cbn [fst snd].
  apply pair_equal_spec. split; [apply pair_equal_spec; split|]; field.
Qed.
Example C86_jacobian_applies : forall a, a_yaw a = PI / 2 -> a_pitch a = 0 -> a_roll a = 0 ->
  exists f d, f 0 = a /\ follows f (0, 0, 1) (attitude a) /\ cos (a_pitch (f 0)) <> 0 /\
    dV (fun t => ypr_vec (f t)) d /\ d = (1, 0, 0).
Proof.
  intros a _ P Q. assert (N : cos (a_pitch a) <> 0) by (rewrite P, cos_0; lra).
  destruct (C86_angles_are_smooth a (0, 0, 1) N) as (f & A & B & d & D). exists f, d.
  assert (N' : cos (a_pitch (f 0)) <> 0) by (rewrite A; exact N).
  split; [exact A|]. split; [exact B|]. split; [exact N'|]. split; [exact D|].
  rewrite <- (C86_jacobian f (0, 0, 1) (attitude a) d B N' D), A. exact (level_turn a P Q).
Qed.

(** No turn is lost: a covariance without certain directions gives angles without certain directions. *)
Theorem C86_no_direction_is_lost : forall a w, cos (a_pitch a) <> 0 ->
  mv (jac_ypr a (attitude a)) w = v0 -> w = v0.
Proof. exact jac_regular. Qed.
Print Assumptions C86_no_direction_is_lost.

(** Straight up and straight down there is always a turn that the angles cannot follow smoothly, so the
    output has no covariance there. *)
Theorem C86_always_smooth_refuted : forall a, Rabs (a_pitch a) = PI / 2 -> exists w, forall f, f 0 = a ->
  follows f w (attitude a) -> ~ exists d, dV (fun t => ypr_vec (f t)) d.
Proof.
  intros a H.
  assert (N : cos (a_pitch a) = 0).
  { unfold Rabs in H. destruct (Rcase_abs (a_pitch a)).
    - rewrite <- cos_neg, H. apply cos_PI2.
    - rewrite H. apply cos_PI2. }
  destruct (gimbal a N) as (w & W). exists w. intros f F0 F ([[dy dp] dr] & Y & P & Q).
  apply (W f F0 F). exists dy, dp, dr. split; [exact Y|]. split; [exact P|exact Q].
Qed.
Print Assumptions C86_always_smooth_refuted.
