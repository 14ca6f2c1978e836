(** Specification vocabulary for C11-C13. *)
From Coq Require Import Reals.
From Verif Require Import DistModel.
Local Open Scope R_scope.

(** distances a parametrisation can represent *)
Definition representable (t : dtype) (d : R) : Prop :=
  match t with
  | REGULAR => True
  | INVERSE => / 1000000 <= Rabs d <= 1000000
  | LOG => 0 < d
  | HYPERBOLIC => True
  end.

(** parameter values at which the parametrisation is smooth *)
Definition smooth_param (t : dtype) (p : R) : Prop :=
  match t with INVERSE => / 1000000 < Rabs p | _ => True end.
(** parameter values whose distance is smooth for the inverse map, too *)
Definition smooth_dist (t : dtype) (p : R) : Prop :=
  match t with INVERSE => / 1000000 < Rabs p < 1000000 | _ => True end.

(** the mathematical parameter-of-distance map *)
Definition param_fun (t : dtype) (d : R) : R :=
  match t with
  | REGULAR => d
  | INVERSE => / d
  | LOG => ln d
  | HYPERBOLIC => arcsinh d
  end.
Definition dist_fun (t : dtype) (p : R) : R :=
  match t with
  | REGULAR => p
  | INVERSE => / p
  | LOG => exp p
  | HYPERBOLIC => (exp p - exp (- p)) / 2
  end.
