(** C103: the inverse distance parameter in double precision. *)
From Coq Require Import ZArith Bool Reals Lia Lra.
From Flocq Require Import Core BinarySingleNaN.
From Verif Require Import IeeeModel IeeeProofs StampModel StampProofs DistModel IdistModel IdistSpec IdistProofs.
Local Open Scope R_scope.

(** The smallest magnitude makeNonZero lets through is the double nearest to 10^-6. *)
Theorem C103_threshold : finite64 micro64 /\ is_micro (val micro64).
Proof. exact micro_val. Qed.
Print Assumptions C103_threshold.

(** Whatever number the filter makes of the parameter (zero, denormal, huge), the distance is a nonzero number of at
    most one million, on the same side as the parameter. *)
Theorem C103_distance_defined : forall p, finite64 p ->
  finite64 (inverse_distance p) /\ 0 < Rabs (val (inverse_distance p)) <= 1000000 /\
  (0 <= val p -> 0 < val (inverse_distance p)) /\ (val p < 0 -> val (inverse_distance p) < 0).
Proof. exact distance_ok. Qed.
Print Assumptions C103_distance_defined.

(** It is the reciprocal up to one rounding. *)
Theorem C103_distance_accurate : forall p, finite64 p -> val micro64 <= Rabs (val p) <= bpow radix2 1022 ->
  rel_close 53 (val (inverse_distance p)) (1 / val p).
Proof. intros p Fp [L U]. unfold val in L. rewrite (proj2 micro_val) in L. now apply distance_close. Qed.
Print Assumptions C103_distance_accurate.

(** Rounding never turns the order of two depths around. *)
Theorem C103_order : forall p q, finite64 p -> finite64 q -> val p <= val q -> 0 <= val p \/ val q < 0 ->
  val (inverse_distance q) <= val (inverse_distance p).
Proof. exact distance_mono. Qed.
Print Assumptions C103_order.

(** A distance between a micrometre and a thousand kilometres is read back to within one unit in the last place. *)
Theorem C103_round_trip : forall d, finite64 d -> val micro64 <= Rabs (val d) <= 1000000 ->
  rel_close 52 (val (inverse_distance (inverse_param d))) (val d).
Proof. intros d Fd [L U]. unfold val in L. rewrite (proj2 micro_val) in L. now apply trip_ok. Qed.
Print Assumptions C103_round_trip.

(** Distances outside are read back as exactly the nearest bound, with their sign. *)
Theorem C103_saturates : forall d, finite64 d ->
  (0 <= val d <= val micro64 -> val (inverse_distance (inverse_param d)) = val micro64) /\
  (- val micro64 <= val d < 0 -> val (inverse_distance (inverse_param d)) = - val micro64) /\
  (1000000 <= val d -> val (inverse_distance (inverse_param d)) = 1000000) /\
  (val d <= - 1000000 -> val (inverse_distance (inverse_param d)) = - 1000000).
Proof.
  intros d Fd. unfold val. rewrite (proj2 micro_val). repeat split.
  - intros [A B]. now apply sat_small.
  - intros [A B]. now apply sat_small'.
  - now apply sat_large.
  - now apply sat_large'.
Qed.
Print Assumptions C103_saturates.

(** The derivative of the distance that enters the Jacobians is a number for every parameter, even when the square in it
    overflows. *)
Theorem C103_distance_derivative : forall p, finite64 p ->
  finite64 (inverse_distance_derivative p) /\ -1000000000000 <= val (inverse_distance_derivative p) <= 0.
Proof. exact dd_ok. Qed.
Print Assumptions C103_distance_derivative.

(** The two derivatives are reciprocal up to one rounding, and negative. *)
Theorem C103_derivatives_reciprocal : forall p, finite64 p -> Rabs (val p) <= bpow radix2 500 ->
  finite64 (inverse_param_derivative p) /\
  rel_close 53 (val (inverse_distance_derivative p) * val (inverse_param_derivative p)) 1 /\
  val (inverse_param_derivative p) < 0 /\ val (inverse_distance_derivative p) < 0.
Proof. intros p Fp U. split; [apply (dp_ok p Fp U)|now apply product_ok]. Qed.
Print Assumptions C103_derivatives_reciprocal.

(** The second derivative term is exact. *)
Theorem C103_combined_derivative : forall p, finite64 p -> val micro64 <= Rabs (val p) <= bpow radix2 1000 ->
  finite64 (inverse_combined_derivative p) /\ val (inverse_combined_derivative p) = -2 * val p.
Proof. intros p Fp [L U]. unfold val in L. rewrite (proj2 micro_val) in L. now apply dc_ok. Qed.
Print Assumptions C103_combined_derivative.

(** The derivative of the parameter overflows for huge parameters. *)
Theorem C103_param_derivative_overflow_refuted : exists p, finite64 p /\ inverse_param_derivative p = B754_infinity true.
Proof.
  exists (binary_normalize 53 1024 q53 q1024 mode_NE 1 600 false). split; [vm_compute; reflexivity|].
  assert (E : B2SF (inverse_param_derivative (binary_normalize 53 1024 q53 q1024 mode_NE 1 600 false)) = SpecFloat.S754_infinity true) by (vm_compute; reflexivity).
  destruct (inverse_param_derivative (binary_normalize 53 1024 q53 q1024 mode_NE 1 600 false)); cbn in E; congruence.
Qed.
Print Assumptions C103_param_derivative_overflow_refuted.

(** The sign of an infinite negative distance is lost (its parameter is -0, which counts as not negative), and a
    parameter that is not a number gives a distance that is none. *)
Theorem C103_infinite_distance_refuted : val (inverse_distance (inverse_param (B754_infinity true))) = 1000000 /\
  inverse_distance B754_nan = B754_nan.
Proof.
  split; [|reflexivity]. assert (E : inverse_param (B754_infinity true) = B754_zero true) by reflexivity. rewrite E.
  unfold val. rewrite (proj2 (inv_val (B754_zero true) eq_refl)). cbn [B2R]. rewrite nzR_small; [apply mR_inv|lra|pose proof mR_pos; lra].
Qed.
Print Assumptions C103_infinite_distance_refuted.

(** A parameter and a distance that meet the hypotheses: 3 *)
Example C103_hypotheses_met : finite64 (g64_of_Z 3) /\ val micro64 <= Rabs (val (g64_of_Z 3)) <= 1000000 /\
  Rabs (val (g64_of_Z 3)) <= bpow radix2 500 /\
  val (inverse_distance (g64_of_Z 3)) <> 1 / val (g64_of_Z 3).
Proof.
  destruct (of_Z64' 3 ltac:(lia)) as [F3 E3]. split; [exact F3|]. unfold val. rewrite E3, (proj2 micro_val), (Rabs_pos_eq 3) by lra. unfold mR. split; [lra|]. split.
  - apply Rle_trans with (bpow radix2 2); [change (bpow radix2 2) with 4; lra|apply bpow_le; lia].
  - assert (E : B2SF (inverse_distance (g64_of_Z 3)) = SpecFloat.S754_finite false 6004799503160661 (-54)) by (vm_compute; reflexivity).
    rewrite <- SF2R_B2SF, E. unfold SF2R, F2R. cbn [Fnum Fexp cond_Zopp]. change (bpow radix2 (-54)) with (/ 18014398509481984). lra.
Qed.
