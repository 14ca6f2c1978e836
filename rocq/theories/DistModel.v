(** Model of rovio::FeatureDistance (/repo/src/FeatureDistance.cpp). Numbers are real numbers (no
    rounding); a result that is not a finite number is [None]. *)
From Coq Require Import Reals ZArith.
Local Open Scope R_scope.

(** FeatureDistance.hpp lines 42-47 *)
Inductive dtype := REGULAR | INVERSE | LOG | HYPERBOLIC.
Record fdist := { fd_type : dtype; fd_p : R }.

(** FeatureDistance.cpp lines 7-10 *)
Definition mk (t : dtype) : fdist := {| fd_type := t; fd_p := 1 |}.

(** setType, lines 14-16: the parameter is kept *)
Definition set_type (t : dtype) (f : fdist) : fdist := {| fd_type := t; fd_p := fd_p f |}.

(** setType(int), lines 22-41 *)
Definition type_of_int (i : Z) : dtype :=
  match i with 0%Z => REGULAR | 1%Z => INVERSE | 2%Z => LOG | 3%Z => HYPERBOLIC | _ => REGULAR end.

(** makeNonZero, lines 151-160 *)
Definition eps : R := / 1000000.
Definition make_non_zero (p : R) : R :=
  if Rlt_dec p eps then
    if Rle_dec 0 p then eps
    else if Rlt_dec (- eps) p then - eps else p
  else p.

(** setParameter*, lines 127, 162, 188, 210. log of a non-positive number is NaN or -inf. *)
Definition param_of (t : dtype) (d : R) : option R :=
  match t with
  | REGULAR => Some d
  | INVERSE => Some (1 / make_non_zero d)
  | LOG => if Rlt_dec 0 d then Some (ln d) else None
  | HYPERBOLIC => Some (arcsinh d)
  end.
Definition set_parameter (f : fdist) (d : R) : option fdist :=
  option_map (fun p => {| fd_type := fd_type f; fd_p := p |}) (param_of (fd_type f) d).

(** getDistance*, lines 131, 166, 192, 214 *)
Definition dist_of (t : dtype) (p : R) : R :=
  match t with
  | REGULAR => p
  | INVERSE => 1 / make_non_zero p
  | LOG => exp p
  | HYPERBOLIC => sinh p
  end.
Definition get_distance (f : fdist) : R := dist_of (fd_type f) (fd_p f).

(** getDistanceDerivative*, lines 135, 171, 196, 218 *)
Definition distance_derivative (f : fdist) : R :=
  let p := fd_p f in
  match fd_type f with
  | REGULAR => 1
  | INVERSE => let q := make_non_zero p in - 1 / (q * q)
  | LOG => exp p
  | HYPERBOLIC => cosh p
  end.

(** getParameterDerivative*, lines 139, 176, 200, 222 *)
Definition parameter_derivative (f : fdist) : R :=
  let p := fd_p f in
  match fd_type f with
  | REGULAR => 1
  | INVERSE => let q := make_non_zero p in - q * q
  | LOG => exp (- p)
  | HYPERBOLIC => 1 / sqrt (sinh p ^ 2 + 1)
  end.

(** getParameterDerivativeCombined*, lines 143, 181, 204, 226; pow(x,1.5) = Rpower x (3/2) for x > 0 *)
Definition parameter_derivative_combined (f : fdist) : R :=
  let p := fd_p f in
  match fd_type f with
  | REGULAR => 0
  | INVERSE => let q := make_non_zero p in - 2 * q
  | LOG => - exp (- p)
  | HYPERBOLIC => - sinh p / Rpower (sinh p ^ 2 + 1) (3 / 2) * cosh p
  end.

(** conversion overload, lines 123-125 *)
Definition convert (f other : fdist) : option fdist := set_parameter f (get_distance other).
