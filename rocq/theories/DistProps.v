(** Properties C11-C13: distance parametrisations. *)
From Coq Require Import Reals ZArith Lra Lia.
From Verif Require Import DistModel DistSpec DistProofs.
Local Open Scope R_scope.

(** ** C11 *)
Theorem C11_distance_round_trip : forall t d, representable t d ->
  exists p, param_of t d = Some p /\ dist_of t p = d.
Proof. exact round_trip. Qed.
Print Assumptions C11_distance_round_trip.

Theorem C11_parameter_round_trip : forall t p,
  match t with INVERSE => / 1000000 <= Rabs p <= 1000000 | _ => True end ->
  param_of t (dist_of t p) = Some p.
Proof. exact param_round_trip. Qed.
Print Assumptions C11_parameter_round_trip.

Theorem C11_inverse_saturates_small : forall d, Rabs d < / 1000000 ->
  exists p, param_of INVERSE d = Some p /\
    dist_of INVERSE p = (if Rle_dec 0 d then / 1000000 else - / 1000000).
Proof. exact inverse_saturates_small. Qed.
Print Assumptions C11_inverse_saturates_small.

Theorem C11_inverse_saturates_large : forall d, 1000000 < Rabs d ->
  exists p, param_of INVERSE d = Some p /\
    dist_of INVERSE p = (if Rle_dec 0 d then 1000000 else - 1000000).
Proof. exact inverse_saturates_large. Qed.
Print Assumptions C11_inverse_saturates_large.

(** the divisor is never zero *)
Theorem C11_no_division_by_zero : forall p, make_non_zero p <> 0.
Proof. exact mnz_nz. Qed.
Print Assumptions C11_no_division_by_zero.

Theorem C11_inverse_distance_bounded : forall p, 0 < Rabs (dist_of INVERSE p) <= 1000000.
Proof. exact inverse_distance_bounded. Qed.
Print Assumptions C11_inverse_distance_bounded.

(** the logarithmic parametrisation has no finite parameter for a non-positive distance *)
Theorem C11_log_nonpositive_refuted : exists d, param_of LOG d = None.
Proof. exists 0. cbn. destruct (Rlt_dec 0 0); [lra|reflexivity]. Qed.
Print Assumptions C11_log_nonpositive_refuted.

(** the configured number selects the parametrisation: what is stored for a distance d is d, 1/d, the
    logarithm or the inverse hyperbolic sine; any other number behaves like 0 *)
Theorem C11_configured_type : forall i f d, / 1000000 <= d -> exists p, set_parameter (set_type (type_of_int i) f) d = Some p /\
  (i = 1%Z -> fd_p p * d = 1) /\ (i = 2%Z -> exp (fd_p p) = d) /\ (i = 3%Z -> (exp (fd_p p) - exp (- fd_p p)) / 2 = d) /\
  (~ (1 <= i <= 3)%Z -> fd_p p = d) /\ (d <= 1000000 -> get_distance p = d).
Proof.
  intros i f d Hd. assert (A : Rabs d = d) by (apply Rabs_pos_eq; lra). assert (M : make_non_zero d = d) by (apply mnz_out; unfold eps; lra).
  assert (D : d <= 1000000 -> forall t, exists p, param_of t d = Some p /\ dist_of t p = d) by (intros U t; apply round_trip; destruct t; cbn; lra).
  assert (G : forall t p, param_of t d = Some p -> d <= 1000000 -> dist_of t p = d) by (intros t p E U; destruct (D U t) as (p' & E' & V); congruence).
  unfold set_parameter, set_type, get_distance. cbn [fd_type fd_p].
  assert (Q : forall t, exists p, param_of t d = Some p) by (intros []; cbn; [eauto|eauto|destruct (Rlt_dec 0 d); [eauto|lra]|eauto]).
  destruct (Q (type_of_int i)) as [p E]. rewrite E. cbn [option_map]. eexists. split; [reflexivity|]. cbn [fd_type fd_p].
  repeat match goal with |- _ /\ _ => split end; try (intros ->; cbn in E).
  - injection E as <-. rewrite M. field. lra.
  - destruct (Rlt_dec 0 d) as [L|L]; [|lra]. injection E as <-. apply exp_ln. exact L.
  - injection E as <-. apply sinh_arcsinh.
  - intros N. destruct i as [|[[]|[]|]|]; cbn in E; try congruence; lia.
  - apply G. exact E.
Qed.
Print Assumptions C11_configured_type.

Example C11_hypotheses_met : representable INVERSE (-5) /\ representable LOG 5 /\ representable REGULAR (-5) /\ representable HYPERBOLIC 5.
Proof. cbn. unfold Rabs; destruct (Rcase_abs _); lra. Qed.

(** ** C12 *)
Theorem C12_distance_derivative : forall t p, smooth_param t p ->
  derivable_pt_lim (fun q => get_distance {| fd_type := t; fd_p := q |}) p
                   (distance_derivative {| fd_type := t; fd_p := p |}).
Proof. exact distance_derivative_ok. Qed.
Print Assumptions C12_distance_derivative.

(** around the represented distance the stored parameter is [param_fun], and its derivative is reported *)
Theorem C12_parameter_derivative : forall t p, smooth_dist t p ->
  (exists del : posreal, forall h, Rabs h < del ->
     param_of t (dist_of t p + h) = Some (param_fun t (dist_of t p + h))) /\
  derivable_pt_lim (param_fun t) (dist_of t p) (parameter_derivative {| fd_type := t; fd_p := p |}).
Proof. exact parameter_derivative_ok. Qed.
Print Assumptions C12_parameter_derivative.

Theorem C12_combined_derivative : forall t p, smooth_param t p ->
  derivable_pt_lim (fun q => parameter_derivative {| fd_type := t; fd_p := q |}) p
                   (parameter_derivative_combined {| fd_type := t; fd_p := p |}).
Proof. exact combined_ok. Qed.
Print Assumptions C12_combined_derivative.

Theorem C12_derivatives_reciprocal : forall f, distance_derivative f * parameter_derivative f = 1.
Proof. exact reciprocal. Qed.
Print Assumptions C12_derivatives_reciprocal.

(** inside the clamped zone the reported derivative is not the derivative of the distance *)
Theorem C12_clamped_zone_refuted : exists p l,
  derivable_pt_lim (fun q => get_distance {| fd_type := INVERSE; fd_p := q |}) p l /\
  distance_derivative {| fd_type := INVERSE; fd_p := p |} <> l.
Proof.
  exists (/ 2000000), 0. destruct (clamp_derivative (/ 2000000)) as [H1 H2]; [lra|]. split; [exact H1|]. rewrite H2. lra.
Qed.
Print Assumptions C12_clamped_zone_refuted.

Example C12_hypotheses_met : smooth_dist INVERSE (-3) /\ smooth_param INVERSE (-3) /\ smooth_dist LOG (-3).
Proof. cbn. unfold Rabs; destruct (Rcase_abs _); lra. Qed.

(** ** C13 *)
Theorem C13_conversion_preserves_distance : forall f other,
  representable (fd_type f) (get_distance other) ->
  exists f', convert f other = Some f' /\ fd_type f' = fd_type f /\ get_distance f' = get_distance other.
Proof. exact convert_preserves. Qed.
Print Assumptions C13_conversion_preserves_distance.

(** switching the type alone keeps the parameter, so the distance changes *)
Theorem C13_set_type_changes_distance_refuted : exists f t, get_distance (set_type t f) <> get_distance f.
Proof. exists {| fd_type := REGULAR; fd_p := 0 |}, LOG. exact set_type_changes. Qed.
Print Assumptions C13_set_type_changes_distance_refuted.

Example C13_hypotheses_met : exists f other, fd_type f = INVERSE /\ fd_type other = LOG /\
  representable (fd_type f) (get_distance other) /\ get_distance other = 2.
Proof.
  exists (mk INVERSE), {| fd_type := LOG; fd_p := ln 2 |}. unfold get_distance; cbn. rewrite exp_ln by lra.
  rewrite Rabs_pos_eq; repeat split; lra.
Qed.
